(** * Cone and cylinder: positions and orientation *)

From Coq Require Import List Arith Bool Lia Reals Lra.
From Verif Require Import Scalar Linal Result SpecReal VecR VecLemmas ModelKdTree SpecKdTree ModelShapes ModelTransform SpecTransform
  ProofTransform ModelMesh SpecMesh ProofMeshNormal ModelTess SpecTess ProofTessComb ProofTessConn ProofTessMesh ProofTessSphere.
Import ListNotations.
Local Open Scope R_scope.

Lemma azi_nxt a j : (3 <= a)%nat -> (j < a)%nat ->
  cos (azi a (nxt a j)) = cos (azi a j + 2 * PI / INR a) /\ sin (azi a (nxt a j)) = sin (azi a j + 2 * PI / INR a).
Proof.
  intros Ha Hj. unfold nxt. destruct (Nat.eqb_spec j (a - 1)) as [->|Hn].
  - assert (E : azi a (a - 1) + 2 * PI / INR a = 2 * PI).
    { unfold azi. rewrite minus_INR by lia. rewrite <- (azi_full a Ha) at 3. cbn. ring. }
    rewrite E. unfold azi. cbn [INR]. rewrite Rmult_0_l, cos_0, sin_0, cos_2PI, sin_2PI. auto.
  - assert (E : azi a (j + 1) = azi a j + 2 * PI / INR a).
    { unfold azi. rewrite plus_INR. cbn. ring. }
    rewrite E. auto.
Qed.

Lemma azi_neg a k : (3 <= a)%nat -> (k < a)%nat ->
  cos (azi a (neg a k)) = cos (INR k * - (2 * PI / INR a)) /\ sin (azi a (neg a k)) = sin (INR k * - (2 * PI / INR a)).
Proof.
  intros Ha Hk. unfold neg. destruct (Nat.eqb_spec k 0) as [->|Hn].
  - unfold azi. cbn [INR]. rewrite !Rmult_0_l. auto.
  - assert (E : azi a (a - k) = INR k * - (2 * PI / INR a) + 2 * PI).
    { unfold azi. rewrite minus_INR by lia. rewrite <- (azi_full a Ha) at 3. ring. }
    rewrite E, cos_plus, sin_plus, cos_2PI, sin_2PI. split; ring.
Qed.

(** ** Placement *)
Section Place.
  Context (M : R) (meq : hmat (RS M) -> hmat (RS M) -> bool).

  Lemma set_translation_R (A : vec (vec R 3) 3) t l s : @set_translation (RS M) (hmat_of A t l) s = hmat_of A s l.
  Proof.
    destruct A as ((? & ? & ? & []) & (? & ? & ? & []) & (? & ? & ? & []) & []), t as (? & ? & ? & []), s as (? & ? & ? & []). reflexivity.
  Qed.
  Lemma place_R (A : vec (vec R 3) 3) s l (q : vec R 3) :
    (meq (hmat_of A s l) (@hidentity (RS M)) = true -> hmat_of A s l = @hidentity (RS M)) ->
    place meq (hmat_of A s l : hmat (RS M)) q = affine A s q.
  Proof.
    intros H. unfold place. destruct (meq _ _); cbn [negb].
    - rewrite <- (transform_vec3_R M A s l q), (H eq_refl). destruct q as (x & y & z & []). cbn.
      repeat (apply f_equal2; [ring|]). reflexivity.
    - rewrite <- (transform_vec3_R M A s l q). reflexivity.
  Qed.
End Place.

Lemma rigid_inj {n} (f : vec R n -> vec R n) p q : rigid f -> f p = f q -> p = q.
Proof. intros H E. apply rdist_zero. rewrite <- H, E. apply rdist_self. Qed.
Lemma affine_shift {n} (A : vec (vec R n) n) t p : affine A t p = radd (affine A rzero p) t.
Proof. unfold affine. apply eq_by_dot. vring. Qed.
Lemma rigid_shift {n} (A : vec (vec R n) n) t : rigid (affine A rzero) -> rigid (affine A t).
Proof. intros H p q. specialize (H p q). unfold rdist in *. rewrite affine_sub in *. exact H. Qed.

Lemma affine_faces (A : vec (vec R 3) 3) t c q0 q1 q2 : 0 < det3 A -> faces_away c q0 q1 q2 ->
  faces_away (affine A t c) (affine A t q0) (affine A t q1) (affine A t q2).
Proof.
  intros HA H. unfold faces_away in *. rewrite !affine_sub. unfold det3 in HA.
  destruct A as (a1 & a2 & a3 & []). generalize dependent (rsub q0 c). generalize (rsub q1 q0), (rsub q2 q0). intros u v w H.
  eapply Rlt_le_trans; [exact (Rmult_lt_0_compat _ _ HA H)|]. right. clear HA H. clear. v3. ring.
Qed.

(** ** The cone *)
Definition kvs (a : nat) : list kvert := KC :: map KR (seq 0 a) ++ [KP].
Lemma kvs_enum a : map (kenc a) (kvs a) = seq 0 (a + 2).
Proof.
  unfold kvs. cbn [map kenc]. rewrite map_app, map_map. cbn [kenc map].
  replace (a + 2)%nat with (S (a + 1)) by lia. cbn [seq]. f_equal. rewrite seq_app, (seq_from 1 a). cbn [seq].
  rewrite (Nat.add_comm 1 a). reflexivity.
Qed.
Lemma kvs_ok a v : In v (kvs a) -> kv_ok a v.
Proof.
  intros [<-|H]; [exact I|]. apply in_app_iff in H as [H|[<-|[]]]; [|exact I].
  apply in_map_iff in H as (j & <- & Hj). apply in_seq in Hj. cbn. lia.
Qed.

Section ConePos.
  Context (a : nat) (Ha : (3 <= a)%nat) (r len : R) (Hr : 0 < r) (Hlen : 0 < len).

  Definition kpos (v : kvert) : vec R 3 :=
    match v with
    | KC => (0, (0, (0, tt)))
    | KP => (0, (0, (len, tt)))
    | KR j => cylindrical r (azi a j) 0
    end.

  Lemma cyl_not_axis ph z z' : cylindrical r ph z <> (0, (0, (z', tt))).
  Proof.
    intros E. unfold cylindrical in E. injection E as E1 E2 _. pose proof (sin2_cos2 ph) as K. unfold Rsqr in K.
    assert (cos ph = 0) by nra. assert (sin ph = 0) by nra. nra.
  Qed.
  Lemma cyl_inj i j z z' : (i < a)%nat -> (j < a)%nat -> cylindrical r (azi a i) z = cylindrical r (azi a j) z' -> i = j /\ z = z'.
  Proof.
    intros Hi Hj E. unfold cylindrical in E. injection E as E1 E2 E3. split; [|exact E3].
    apply (azi_inj a Ha); [exact Hi|exact Hj| |]; apply Rmult_eq_reg_l with r; lra.
  Qed.

  Lemma kpos_inj u v : kv_ok a u -> kv_ok a v -> kpos u = kpos v -> u = v.
  Proof.
    destruct u as [| |i], v as [| |j]; cbn [kv_ok kpos]; intros Hu Hv E; try reflexivity.
    - injection E as E. lra.
    - symmetry in E. apply cyl_not_axis in E. contradiction.
    - injection E as E. lra.
    - symmetry in E. apply cyl_not_axis in E. contradiction.
    - apply cyl_not_axis in E. contradiction.
    - apply cyl_not_axis in E. contradiction.
    - apply cyl_inj in E; [|exact Hu|exact Hv]. f_equal. apply E.
  Qed.

  Lemma circle_ccw M (z : R) : circle_points (S := RS M) (mk3 0 0 z) r a CCW =
    (0, (0, (z, tt))) :: map (fun j => cylindrical r (azi a j) z) (seq 0 a).
  Proof.
    unfold circle_points, discretize_circle. f_equal. apply map_ext. intros j. unfold azi, cylindrical.
    change (@sofnat (RS M)) with INR. cbn -[INR]. unfold mk3. replace (1 + 1) with 2 by ring.
    repeat (apply f_equal2; [ring|]). reflexivity.
  Qed.
  Lemma circle_cw M (z : R) : circle_points (S := RS M) (mk3 0 0 z) r a CW =
    (0, (0, (z, tt))) :: map (fun k => cylindrical r (azi a (neg a k)) z) (seq 0 a).
  Proof.
    unfold circle_points, discretize_circle. f_equal. apply map_ext_in. intros k Hk. apply in_seq in Hk.
    unfold cylindrical. destruct (azi_neg a k Ha) as [-> ->]; [lia|].
    change (@sofnat (RS M)) with INR. cbn -[INR]. unfold mk3. replace (1 + 1) with 2 by ring.
    repeat (apply f_equal2; [ring|]). reflexivity.
  Qed.

  Lemma cone_points_eq M : circle_points (S := RS M) (mk3 0 0 0) r a CCW ++ [mk3 0 0 len] = map kpos (kvs a).
  Proof.
    rewrite circle_ccw. unfold kvs. cbn [map app kpos]. rewrite map_app, map_map. reflexivity.
  Qed.

  (** orientation, seen from a point of the axis *)
  Lemma bottom_away h i j : 0 < h -> (i < a)%nat -> j = nxt a i ->
    faces_away (0, (0, (h, tt))) (cylindrical r (azi a j) 0) (cylindrical r (azi a i) 0) (0, (0, (0, tt))).
  Proof.
    intros Hh Hi ->. unfold faces_away, cylindrical. destruct (azi_nxt a i Ha Hi) as [-> ->].
    rewrite cos_plus, sin_plus. pose proof (sin_step a Ha) as Hd. cbn.
    pose proof (sin2_cos2 (azi a i)) as K. unfold Rsqr in K.
    set (c := cos (azi a i)) in *. set (s := sin (azi a i)) in *. set (cd := cos (2 * PI / INR a)) in *. set (sd := sin (2 * PI / INR a)) in *.
    apply Rlt_le_trans with (r * r * sd * h * (s * s + c * c)).
    - rewrite K, Rmult_1_r. repeat apply Rmult_lt_0_compat; assumption.
    - right. ring.
  Qed.
  Lemma up_away h z i j : h < z -> (i < a)%nat -> j = nxt a i -> forall zr,
    faces_away (0, (0, (h, tt))) (cylindrical r (azi a i) zr) (cylindrical r (azi a j) zr) (0, (0, (z, tt))).
  Proof.
    intros Hh Hi -> zr. unfold faces_away, cylindrical. destruct (azi_nxt a i Ha Hi) as [-> ->].
    rewrite cos_plus, sin_plus. pose proof (sin_step a Ha) as Hd. cbn.
    pose proof (sin2_cos2 (azi a i)) as K. unfold Rsqr in K.
    set (c := cos (azi a i)) in *. set (s := sin (azi a i)) in *. set (cd := cos (2 * PI / INR a)) in *. set (sd := sin (2 * PI / INR a)) in *.
    apply Rlt_le_trans with (r * r * sd * (z - h) * (s * s + c * c)).
    - rewrite K, Rmult_1_r. assert (0 < z - h) by lra. repeat apply Rmult_lt_0_compat; assumption.
    - right. ring.
  Qed.

  Lemma ktri_away h x y z : 0 < h < len -> In (x, y, z) (map (ktri a) (ktags a)) ->
    faces_away (0, (0, (h, tt))) (kpos z) (kpos y) (kpos x).
  Proof.
    intros Hh H. apply in_map_iff in H as ([j|j] & E & Ht); apply ktags_ok in Ht; cbn in Ht, E; injection E as <- <- <-.
    - apply bottom_away; [lra|exact Ht|reflexivity].
    - apply up_away; [lra|exact Ht|reflexivity].
  Qed.
End ConePos.

(** ** The cylinder *)
Definition yvs (a : nat) : list yvert := (YB :: map YRB (seq 0 a)) ++ (YT :: map (fun k => YRT (neg a k)) (seq 0 a)).
Lemma yvs_enum a : map (yenc a) (yvs a) = seq 0 (2 * a + 2).
Proof.
  unfold yvs. rewrite map_app. cbn [map yenc]. rewrite !map_map. cbn [yenc].
  replace (2 * a + 2)%nat with (S a + S a)%nat by lia. rewrite seq_app. f_equal.
  - cbn [seq]. rewrite (seq_from 1 a). reflexivity.
  - cbn [seq]. f_equal; [lia|]. rewrite (seq_from (S _) a). apply map_ext_in. intros k Hk. apply in_seq in Hk. rewrite neg_neg by lia. lia.
Qed.
Lemma yvs_ok a v : In v (yvs a) -> yv_ok a v.
Proof.
  unfold yvs. rewrite in_app_iff. intros [[<-|H]|[<-|H]]; try exact I;
    apply in_map_iff in H as (j & <- & Hj); apply in_seq in Hj; cbn; try apply neg_lt; lia.
Qed.

Section CylinderPos.
  Context (a : nat) (Ha : (3 <= a)%nat) (r len : R) (Hr : 0 < r) (Hlen : 0 < len).

  Definition ypos (v : yvert) : vec R 3 :=
    match v with
    | YB => (0, (0, (0, tt)))
    | YT => (0, (0, (len, tt)))
    | YRB j => cylindrical r (azi a j) 0
    | YRT j => cylindrical r (azi a j) len
    end.

  Lemma ypos_inj u v : yv_ok a u -> yv_ok a v -> ypos u = ypos v -> u = v.
  Proof.
    destruct u as [| |i|i], v as [| |j|j]; cbn [yv_ok ypos]; intros Hu Hv E; try reflexivity;
      try (injection E as E; lra);
      try (symmetry in E; apply (cyl_not_axis r Hr) in E; contradiction);
      try (apply (cyl_not_axis r Hr) in E; contradiction);
      apply (cyl_inj a Ha r Hr) in E; try assumption; destruct E; try lra; f_equal; assumption.
  Qed.

  Lemma cylinder_points_eq M : circle_points (S := RS M) (mk3 0 0 0) r a CCW ++ circle_points (S := RS M) (mk3 0 0 len) r a CW =
    map ypos (yvs a).
  Proof.
    rewrite circle_ccw, (circle_cw a Ha). unfold yvs. rewrite map_app. cbn [map ypos]. rewrite !map_map. reflexivity.
  Qed.

  Lemma ytri_away h x y z : 0 < h < len -> In (x, y, z) (map (ytri a) (ytags a)) ->
    faces_away (0, (0, (h, tt))) (ypos z) (ypos y) (ypos x).
  Proof.
    intros Hh H. apply in_map_iff in H as (t & E & Ht). apply ytags_ok in Ht.
    pose proof (sin_step a Ha) as Hd.
    destruct t as [j|j|j|j]; cbn in Ht, E; injection E as <- <- <-; cbn [ypos].
    - apply (bottom_away a Ha); [assumption|lra|exact Ht|reflexivity].
    - apply (up_away a Ha); [assumption|lra|apply prv_lt; assumption|]. symmetry. apply nxt_prv; assumption.
    - unfold faces_away, cylindrical. destruct (azi_nxt a j Ha Ht) as [-> ->].
      rewrite cos_plus, sin_plus. cbn.
      pose proof (sin2_cos2 (azi a j)) as K. unfold Rsqr in K.
      set (c := cos (azi a j)) in *. set (s := sin (azi a j)) in *. set (cd := cos (2 * PI / INR a)) in *. set (sd := sin (2 * PI / INR a)) in *.
      apply Rlt_le_trans with (r * r * sd * len * (s * s + c * c)).
      + rewrite K, Rmult_1_r. repeat apply Rmult_lt_0_compat; assumption.
      + right. ring.
    - unfold faces_away, cylindrical. destruct (azi_nxt a j Ha Ht) as [-> ->].
      rewrite cos_plus, sin_plus. cbn.
      pose proof (sin2_cos2 (azi a j)) as K. unfold Rsqr in K.
      set (c := cos (azi a j)) in *. set (s := sin (azi a j)) in *. set (cd := cos (2 * PI / INR a)) in *. set (sd := sin (2 * PI / INR a)) in *.
      apply Rlt_le_trans with (r * r * sd * len * (s * s + c * c)).
      + rewrite K, Rmult_1_r. repeat apply Rmult_lt_0_compat; assumption.
      + right. ring.
  Qed.
End CylinderPos.
