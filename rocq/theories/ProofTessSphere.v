(** * The sphere: positions and orientation *)

From Coq Require Import List Arith Bool Lia Reals Lra.
From Verif Require Import Scalar Linal Result SpecReal VecR ModelKdTree SpecKdTree ModelShapes ModelTransform ModelMesh SpecMesh
  ProofMeshNormal ModelTess SpecTess ProofTessComb ProofTessConn ProofTessMesh.
Import ListNotations.
Local Open Scope R_scope.

(** ** Angles *)

Lemma angle_unique x y : 0 <= x < 2 * PI -> 0 <= y < 2 * PI -> cos x = cos y -> sin x = sin y -> x = y.
Proof.
  assert (K : forall x y, 0 <= y <= x -> x < 2 * PI -> cos x = cos y -> sin x = sin y -> x = y).
  { clear x y. intros x y Hy Hx Hc Hs.
    assert (E : cos (x - y) = 1).
    { rewrite cos_minus, Hc, Hs. pose proof (sin2_cos2 y) as K. unfold Rsqr in K. lra. }
    pose proof PI_RGT_0. destruct (Rle_lt_dec (x - y) PI) as [H1|H1].
    - assert (x - y = 0); [|lra]. apply cos_inj; [lra|lra|]. rewrite cos_0. exact E.
    - exfalso. assert (2 * PI - (x - y) = 0); [|lra]. apply cos_inj; [lra|lra|].
      rewrite cos_minus, cos_2PI, sin_2PI, E, cos_0. lra. }
  intros Hx Hy Hc Hs. destruct (Rle_lt_dec y x); [apply K; lra|]. symmetry. apply K; try lra; auto.
Qed.

(** the azimuth of number [j] of [a] *)
Definition azi (a j : nat) : R := INR j * (2 * PI / INR a).

Section Azimuth.
  Context (a : nat) (Ha : (3 <= a)%nat).
  Let d := 2 * PI / INR a.

  Lemma INR_a : 3 <= INR a.
  Proof. replace 3 with (INR 3) by (cbn; lra). apply le_INR. exact Ha. Qed.
  Lemma azi_step : 0 < d < PI.
  Proof.
    pose proof PI_RGT_0. pose proof INR_a. unfold d. split.
    - apply Rdiv_lt_0_compat; lra.
    - apply Rmult_lt_reg_r with (INR a); [lra|]. unfold Rdiv. rewrite Rmult_assoc, Rinv_l by lra. nra.
  Qed.
  Lemma sin_step : 0 < sin d.
  Proof. pose proof azi_step. apply sin_gt_0; lra. Qed.
  Lemma azi_full : INR a * d = 2 * PI.
  Proof. pose proof INR_a. unfold d. field. lra. Qed.
  Lemma azi_range j : (j < a)%nat -> 0 <= azi a j < 2 * PI.
  Proof.
    intros Hj. pose proof azi_step. pose proof (pos_INR j). apply lt_INR in Hj. unfold azi. fold d. split; [nra|].
    rewrite <- azi_full. nra.
  Qed.
  Lemma azi_inj i j : (i < a)%nat -> (j < a)%nat -> cos (azi a i) = cos (azi a j) -> sin (azi a i) = sin (azi a j) -> i = j.
  Proof.
    intros Hi Hj Hc Hs. pose proof azi_step. pose proof (angle_unique _ _ (azi_range i Hi) (azi_range j Hj) Hc Hs) as E.
    unfold azi in E. fold d in E. apply INR_eq. nra.
  Qed.
  Lemma azi_prv j : (j < a)%nat -> cos (azi a (prv a j)) = cos (azi a j - d) /\ sin (azi a (prv a j)) = sin (azi a j - d).
  Proof.
    intros Hj. unfold prv. destruct (Nat.eqb_spec j 0) as [->|Hn].
    - assert (E : azi a (a - 1) = 0 - d + 2 * PI).
      { unfold azi. rewrite minus_INR by lia. fold d. rewrite <- azi_full. cbn. ring. }
      assert (E0 : azi a 0 = 0) by (unfold azi; cbn; ring).
      rewrite E, E0, cos_plus, sin_plus, cos_2PI, sin_2PI. split; ring.
    - assert (E : azi a (j - 1) = azi a j - d).
      { unfold azi. rewrite minus_INR by lia. fold d. cbn. ring. }
      rewrite E. auto.
  Qed.
End Azimuth.

Lemma faces_away_rot c q0 q1 q2 : faces_away c q0 q1 q2 -> faces_away c q1 q2 q0.
Proof. unfold faces_away. intros H. eapply Rlt_le_trans; [exact H|]. right. clear H. v3. ring. Qed.

(** ** Enumeration of the vertices *)
Definition svs (p a : nat) : list svert :=
  flat_map (fun i => map (Ring i) (seq 0 a)) (seq 0 (p - 1)) ++ [Top; Bot].

Lemma svs_enum p a : map (senc p a) (svs p a) = seq 0 ((p - 1) * a + 2).
Proof.
  unfold svs. rewrite map_app, map_flat_map.
  assert (E : forall n, flat_map (fun i => map (senc p a) (map (Ring i) (seq 0 a))) (seq 0 n) = seq 0 (n * a)).
  { induction n as [|n IH]; [reflexivity|]. rewrite seq_S, flat_map_app, IH. cbn [flat_map].
    rewrite app_nil_r, map_map. cbn [senc Nat.add]. rewrite <- seq_from.
    replace (S n * a)%nat with (n * a + a)%nat by lia. rewrite seq_app. reflexivity. }
  rewrite E, seq_app. cbn [map senc]. f_equal. cbn [seq]. f_equal. f_equal. lia.
Qed.
Lemma svs_ok p a v : In v (svs p a) -> sv_ok p a v.
Proof.
  unfold svs. rewrite in_app_iff, in_flat_map. intros [(i & Hi & H)|[<-|[<-|[]]]]; cbn; auto.
  apply in_map_iff in H as (j & <- & Hj). apply in_seq in Hi, Hj. cbn. lia.
Qed.

(** ** Positions *)
Section Positions.
  Context (p a : nat) (Hp : (2 <= p)%nat) (Ha : (3 <= a)%nat) (o : vec R 3) (r : R) (Hr : 0 < r).

  Definition pol (i : nat) : R := INR i * (PI / INR p).
  Definition spos (v : svert) : vec R 3 :=
    match v with
    | Top => polar o r 0 0
    | Bot => polar o r PI 0
    | Ring i j => polar o r (pol (i + 1)) (azi a j)
    end.

  Lemma INR_p : 2 <= INR p.
  Proof. replace 2 with (INR 2) by (cbn; lra). apply le_INR. exact Hp. Qed.
  Lemma pol_step : 0 < PI / INR p < PI.
  Proof.
    pose proof PI_RGT_0. pose proof INR_p. split.
    - apply Rdiv_lt_0_compat; lra.
    - apply Rmult_lt_reg_r with (INR p); [lra|]. unfold Rdiv. rewrite Rmult_assoc, Rinv_l by lra. nra.
  Qed.
  Lemma pol_full : INR p * (PI / INR p) = PI.
  Proof. pose proof INR_p. field. lra. Qed.
  Lemma pol_range i : (0 < i < p)%nat -> 0 < pol i < PI.
  Proof.
    intros [H1 H2]. pose proof pol_step. apply lt_INR in H1, H2. cbn [INR] in H1. unfold pol. split; [nra|].
    rewrite <- pol_full at 2. nra.
  Qed.
  Lemma pol_inj i j : pol i = pol j -> i = j.
  Proof. intros E. pose proof pol_step. unfold pol in E. apply INR_eq. nra. Qed.
  Lemma pol_S i : pol (i + 1) = pol i + PI / INR p.
  Proof. unfold pol. rewrite plus_INR. cbn. ring. Qed.

  Lemma polar_eq th ph th' ph' : polar o r th ph = polar o r th' ph' ->
    cos th = cos th' /\ sin th * cos ph = sin th' * cos ph' /\ sin th * sin ph = sin th' * sin ph'.
  Proof.
    intros E. unfold polar in E. destruct o as (x & y & z & []). cbn in E. injection E as E1 E2 E3.
    repeat split; apply Rmult_eq_reg_l with r; lra.
  Qed.

  Lemma spos_inj u v : sv_ok p a u -> sv_ok p a v -> spos u = spos v -> u = v.
  Proof.
    assert (C : forall i th, (i < p - 1)%nat -> 0 <= th <= PI -> cos (pol (i + 1)) = cos th -> pol (i + 1) = th).
    { intros i th Hi Hth E. pose proof (pol_range (i + 1) ltac:(lia)). apply cos_inj; lra. }
    pose proof PI_RGT_0 as HPI.
    destruct u as [| |i j], v as [| |i' j']; cbn [sv_ok spos]; intros Hu Hv E; try reflexivity;
      apply polar_eq in E as (E1 & E2 & E3).
    - rewrite cos_0, cos_PI in E1. lra.
    - symmetry in E1. apply C in E1; [|lia|lra]. pose proof (pol_range (i' + 1) ltac:(lia)). lra.
    - rewrite cos_0, cos_PI in E1. lra.
    - symmetry in E1. apply C in E1; [|lia|lra]. pose proof (pol_range (i' + 1) ltac:(lia)). lra.
    - apply C in E1; [|lia|lra]. pose proof (pol_range (i + 1) ltac:(lia)). lra.
    - apply C in E1; [|lia|lra]. pose proof (pol_range (i + 1) ltac:(lia)). lra.
    - pose proof (pol_range (i' + 1) ltac:(lia)) as R'. apply C in E1; [|lia|lra]. rewrite E1 in *.
      assert (Hs : 0 < sin (pol (i' + 1))) by (apply sin_gt_0; lra).
      assert (i = i') by (apply pol_inj in E1; lia). subst i'. f_equal.
      apply (azi_inj a Ha); [lia|lia| |]; apply Rmult_eq_reg_l with (sin (pol (i + 1))); lra.
  Qed.

  Lemma spos_grid q : sphere_grid p a o r q <-> exists v, sv_ok p a v /\ q = spos v.
  Proof.
    assert (P0 : forall ph, polar o r 0 ph = polar o r 0 0).
    { intros ph. unfold polar. rewrite sin_0, !Rmult_0_l. reflexivity. }
    assert (P1 : forall ph, polar o r PI ph = polar o r PI 0).
    { intros ph. unfold polar. rewrite sin_PI, !Rmult_0_l. reflexivity. }
    split.
    - intros (i & j & Hi & Hj & ->). destruct (Nat.eq_dec i 0) as [->|H0].
      + exists Top. split; [exact I|]. cbn [spos INR]. rewrite Rmult_0_l. apply P0.
      + destruct (Nat.eq_dec i p) as [->|H1].
        * exists Bot. split; [exact I|]. cbn [spos]. rewrite pol_full. apply P1.
        * exists (Ring (i - 1) j). split; [cbn; lia|]. cbn [spos]. replace (i - 1 + 1)%nat with i by lia. reflexivity.
    - intros ([| |i j] & Hv & ->); cbn in Hv.
      + exists 0%nat, 0%nat. split; [lia|]. split; [lia|]. cbn [spos INR]. rewrite !Rmult_0_l. reflexivity.
      + exists p, 0%nat. split; [lia|]. split; [lia|]. cbn [spos]. rewrite pol_full. cbn [INR]. rewrite Rmult_0_l. reflexivity.
      + exists (i + 1)%nat, j. split; [lia|]. split; [lia|]. reflexivity.
  Qed.

  Lemma spos_on_sphere q : sphere_grid p a o r q -> rdist q o = r.
  Proof.
    intros (i & j & _ & _ & ->). generalize (INR i * (PI / INR p)), (INR j * (2 * PI / INR a)). intros th ph.
    unfold rdist, rnorm. transitivity (sqrt (Rsqr r)); [|apply sqrt_Rsqr; lra]. f_equal. unfold polar, Rsqr.
    destruct o as (x & y & z & []). cbn.
    pose proof (sin2_cos2 th) as K1. pose proof (sin2_cos2 ph) as K2. unfold Rsqr in K1, K2.
    transitivity (r * r * (sin th * sin th * (sin ph * sin ph + cos ph * cos ph) + cos th * cos th)); [ring|].
    rewrite K2, Rmult_1_r, K1. ring.
  Qed.

  (** the points written by the code *)
  Lemma sphere_points_eq M (L : Linal (RS M)) : (veq L (o : vec (RS M) 3) rzero = true -> o = rzero) ->
    sphere_points L p a (@mkSphere (RS M) o r) = map spos (svs p a).
  Proof.
    intros Ho. unfold sphere_points, svs. cbn [s_origin s_radius].
    set (pts := flat_map _ _ ++ _).
    assert (E : map (fun q : vec R 3 => radd q o) pts = map spos (flat_map (fun i => map (Ring i) (seq 0 a)) (seq 0 (p - 1)) ++ [Top; Bot])).
    { unfold pts. rewrite !map_app, !map_flat_map. f_equal.
      - rewrite (seq_from 1 (p - 1)), flat_map_map. apply flat_map_ext_in. intros i _. rewrite !map_map.
        apply map_ext. intros j. cbn [spos]. unfold polar, azi, pol.
        replace (i + 1)%nat with (1 + i)%nat by lia. change (@sofnat (RS M)) with INR. destruct o as (x & y & z & []). cbn -[INR].
        unfold mk3. replace (1 + 1) with 2 by ring. repeat (apply f_equal2; [ring|]). reflexivity.
      - cbn [map spos]. unfold polar. rewrite sin_0, sin_PI, cos_0, cos_PI. destruct o as (x & y & z & []). cbn.
        repeat (apply f_equal2; [repeat (apply f_equal2; [ring|]); reflexivity|]). reflexivity. }
    destruct (veq L _ _) eqn:Ev; cbn [negb].
    - rewrite <- E. rewrite (Ho eq_refl). rewrite <- (map_id pts) at 1. apply map_ext. intros (x & y & z & []). cbn.
      repeat (apply f_equal2; [ring|]). reflexivity.
    - rewrite <- E. apply map_ext. intros q. destruct q as (? & ? & ? & []), o as (? & ? & ? & []). reflexivity.
  Qed.

  (** ** Orientation *)
  Lemma polar_det th1 th2 th3 ph ps : 0 < sin (th2 - th1) * sin th3 * sin (ps - ph) ->
    faces_away o (polar o r th1 ph) (polar o r th2 ph) (polar o r th3 ps).
  Proof.
    intros H. unfold faces_away, polar. destruct o as (x & y & z & []). cbn.
    rewrite !sin_minus in H.
    apply Rlt_le_trans with (r * r * r * ((sin th2 * cos th1 - cos th2 * sin th1) * sin th3 * (sin ps * cos ph - cos ps * sin ph))).
    - apply Rmult_lt_0_compat; [repeat apply Rmult_lt_0_compat; assumption|exact H].
    - right. ring.
  Qed.

  Lemma stri_away t : tag_ok p a t -> let '(x, y, z) := stri p a t in faces_away o (spos z) (spos y) (spos x).
  Proof.
    pose proof (sin_step a Ha) as Hd. pose proof pol_step as Hs.
    assert (Pv : forall i j, (j < a)%nat -> spos (Ring i (prv a j)) = polar o r (pol (i + 1)) (azi a j - 2 * PI / INR a)).
    { intros i j Hj. cbn [spos]. unfold polar. destruct (azi_prv a Ha j Hj) as [-> ->]. reflexivity. }
    assert (Tp : forall ph, spos Top = polar o r 0 ph).
    { intros ph. cbn [spos]. unfold polar. rewrite sin_0, !Rmult_0_l. reflexivity. }
    assert (Bt : forall ph, spos Bot = polar o r PI ph).
    { intros ph. cbn [spos]. unfold polar. rewrite sin_PI, !Rmult_0_l. reflexivity. }
    assert (Sp : forall i, (i < p - 1)%nat -> 0 < sin (pol (i + 1))).
    { intros i Hi. pose proof (pol_range (i + 1) ltac:(lia)). apply sin_gt_0; lra. }
    assert (S1 : 0 < sin (PI / INR p)) by (apply sin_gt_0; lra).
    destruct t as [j|j|i j|i j]; cbn [tag_ok stri]; intros Ht; rewrite ?Pv by lia.
    - rewrite (Tp (azi a j - 2 * PI / INR a)). change (spos (Ring 0 j)) with (polar o r (pol (0 + 1)) (azi a j)).
      apply faces_away_rot. apply polar_det. apply Rmult_lt_0_compat; [apply Rmult_lt_0_compat|].
      + rewrite Rminus_0_r. apply Sp. lia.
      + apply Sp; lia.
      + replace (azi a j - _) with (2 * PI / INR a) by ring. exact Hd.
    - rewrite (Bt (azi a j - 2 * PI / INR a)). change (spos (Ring (p - 2) j)) with (polar o r (pol (p - 2 + 1)) (azi a j)).
      apply polar_det. apply Rmult_lt_0_compat; [apply Rmult_lt_0_compat|].
      + rewrite sin_PI_x. apply Sp. lia.
      + apply Sp; lia.
      + replace (azi a j - _) with (2 * PI / INR a) by ring. exact Hd.
    - change (spos (Ring (i - 1) j)) with (polar o r (pol (i - 1 + 1)) (azi a j)).
      apply polar_det. apply Rmult_lt_0_compat; [apply Rmult_lt_0_compat|].
      + replace (i - 1 + 1)%nat with i by lia. rewrite pol_S. replace (pol i + PI / INR p - pol i) with (PI / INR p) by ring. exact S1.
      + apply Sp; lia.
      + replace (azi a j - _) with (2 * PI / INR a) by ring. exact Hd.
    - change (spos (Ring (i - 1) j)) with (polar o r (pol (i - 1 + 1)) (azi a j)).
      change (spos (Ring i j)) with (polar o r (pol (i + 1)) (azi a j)).
      apply polar_det. replace (i - 1 + 1)%nat with i by lia. rewrite pol_S.
      replace (pol i - (pol i + PI / INR p)) with (- (PI / INR p)) by ring.
      replace (azi a j - 2 * PI / INR a - azi a j) with (- (2 * PI / INR a)) by ring. rewrite !sin_neg.
      specialize (Sp i ltac:(lia)). rewrite pol_S in Sp.
      replace (- sin (PI / INR p) * sin (pol i + PI / INR p) * - sin (2 * PI / INR a)) with
        (sin (PI / INR p) * sin (pol i + PI / INR p) * sin (2 * PI / INR a)) by ring.
      repeat apply Rmult_lt_0_compat; assumption.
  Qed.

  Lemma ctri_away x y z : In (x, y, z) (map (ctri p a) (ctags p a)) -> faces_away o (spos z) (spos y) (spos x).
  Proof.
    intros H. apply in_map_iff in H as (t & E & Ht). apply ctags_ok in Ht; [|assumption|assumption].
    pose proof (stri_away t Ht) as K.
    remember (fun u v w => faces_away o (spos u) (spos v) (spos w)) as F eqn:EF.
    assert (Rot : forall u v w, F u v w -> F v w u) by (intros u v w; rewrite EF; apply faces_away_rot).
    assert (K' : let '(x, y, z) := stri p a t in F z y x) by (rewrite EF; exact K). clear K.
    cut (F z y x); [rewrite EF; exact (fun H => H)|]. clear EF.
    destruct t as [[|j]|[|j]|i [|j]|i [|j]]; cbn in E; injection E as <- <- <-; cbn [stri prv Nat.eqb] in K'; auto.
  Qed.
End Positions.
