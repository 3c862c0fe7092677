(** * Lemmas: the facet normals of the tessellated cylinder and cone *)

From Coq Require Import List Arith Bool Lia Reals Lra ZArith.
From Verif Require Import Scalar Linal Result SpecReal VecR VecLemmas SpecTransform SpecFloatErr SpecVertexNear
  ModelKdTree SpecKdTree ModelShapes ModelTransform ModelMesh SpecMesh ModelTess SpecTess ProofTransform
  ProofMesh ProofTessComb ProofTessConn ProofTessMesh ProofTessSphere ProofTessRound ProofTess ProofVolume ProofConvex ProofVertexNear.
Import ListNotations.
Local Open Scope R_scope.

Ltac coords := cbn; unfold mk3; repeat (apply f_equal2; [ring|]); try reflexivity.

Section Local.
  Context (a : nat) (Ha : (3 <= a)%nat) (r len : R) (Hr : 0 < r) (Hlen : 0 < len).
  Notation h := (PI / INR a).
  Definition mid (j : nat) : R := azi a j + h.
  Definition wall (j : nat) : vec R 3 := (cos (mid j), (sin (mid j), (0, tt))).
  Definition slant : R := sqrt (len * len + r * cos h * (r * cos h)).
  Definition side (j : nat) : vec R 3 := (len / slant * cos (mid j), (len / slant * sin (mid j), (r * cos h / slant, tt))).
  Definition down : vec R 3 := (0, (0, (-1, tt))).
  Definition spoke (j : nat) : vec R 3 := (cos (azi a j), (sin (azi a j), (0, tt))).

  Lemma step_half : 2 * PI / INR a = h + h.
  Proof. pose proof (INR_a a Ha). field. lra. Qed.
  Lemma sin_half : 0 < sin h.
  Proof. destruct (half_range a Ha) as ((H0 & H1) & _). pose proof PI_RGT_0. apply sin_gt_0; lra. Qed.
  Lemma cos_half : 0 < cos h.
  Proof. apply (half_range a Ha). Qed.
  Lemma slant_pos : 0 < slant.
  Proof. apply sqrt_lt_R0. pose proof cos_half. assert (0 < r * cos h) by (apply Rmult_lt_0_compat; lra). nra. Qed.
  Lemma slant_sq : slant * slant = len * len + r * cos h * (r * cos h).
  Proof. apply sqrt_sqrt. nra. Qed.
  Lemma one j : cos (mid j) * cos (mid j) + sin (mid j) * sin (mid j) = 1.
  Proof. pose proof (sin2_cos2 (mid j)) as K. unfold Rsqr in K. lra. Qed.
  Lemma h1 : cos h * cos h + sin h * sin h = 1.
  Proof. pose proof (sin2_cos2 h) as K. unfold Rsqr in K. lra. Qed.
  Lemma azi_mid j : cos (azi a j) = cos (mid j) * cos h + sin (mid j) * sin h /\ sin (azi a j) = sin (mid j) * cos h - cos (mid j) * sin h.
  Proof. replace (azi a j) with (mid j - h) by (unfold mid; ring). rewrite cos_minus, sin_minus. split; ring. Qed.
  Lemma nxt_mid j : (j < a)%nat -> cos (azi a (nxt a j)) = cos (mid j) * cos h - sin (mid j) * sin h /\ sin (azi a (nxt a j)) = sin (mid j) * cos h + cos (mid j) * sin h.
  Proof.
    intros Hj. destruct (azi_nxt a j Ha Hj) as (-> & ->). rewrite step_half. replace (azi a j + (h + h)) with (mid j + h) by (unfold mid; ring). rewrite cos_plus, sin_plus. split; ring.
  Qed.
  Lemma mid_azi j : cos (mid j) = cos (azi a j) * cos h - sin (azi a j) * sin h /\ sin (mid j) = sin (azi a j) * cos h + cos (azi a j) * sin h.
  Proof. unfold mid. rewrite cos_plus, sin_plus. split; ring. Qed.
  Lemma mid_prv j : (j < a)%nat -> cos (mid (prv a j)) = cos (azi a j) * cos h + sin (azi a j) * sin h /\ sin (mid (prv a j)) = sin (azi a j) * cos h - cos (azi a j) * sin h.
  Proof.
    intros Hj. unfold mid. rewrite cos_plus, sin_plus. destruct (azi_prv a Ha j Hj) as (-> & ->). rewrite step_half, !cos_minus, !sin_minus, cos_plus, sin_plus.
    pose proof h1 as K. split.
    - transitivity (cos (azi a j) * cos h * (cos h * cos h + sin h * sin h) + sin (azi a j) * sin h * (cos h * cos h + sin h * sin h)); [ring|rewrite K; ring].
    - transitivity (sin (azi a j) * cos h * (cos h * cos h + sin h * sin h) - cos (azi a j) * sin h * (cos h * cos h + sin h * sin h)); [ring|rewrite K; ring].
  Qed.

  Lemma unit3 (x y z : R) : x * x + y * y + z * z = 1 -> rnorm ((x, (y, (z, tt))) : vec R 3) = 1.
  Proof. intros E. unfold rnorm. cbn. replace (x * x + (y * y + (z * z + 0))) with 1 by lra. apply sqrt_1. Qed.
  Lemma wall_unit j : rnorm (wall j) = 1.
  Proof. apply unit3. pose proof (one j). lra. Qed.
  Lemma spoke_unit j : rnorm (spoke j) = 1.
  Proof. apply unit3. pose proof (sin2_cos2 (azi a j)) as K. unfold Rsqr in K. lra. Qed.
  Lemma down_unit : rnorm down = 1.
  Proof. apply unit3. ring. Qed.
  Lemma ez_unit : rnorm e_z = 1.
  Proof. apply unit3. ring. Qed.
  Lemma side_unit j : rnorm (side j) = 1.
  Proof.
    apply unit3. pose proof slant_pos. pose proof (one j) as K.
    transitivity ((len * len * (cos (mid j) * cos (mid j) + sin (mid j) * sin (mid j)) + r * cos h * (r * cos h)) / (slant * slant)); [field; lra|].
    rewrite K, Rmult_1_r, <- slant_sq. field. lra.
  Qed.

  (** the normal of a triangle of the cylinder, of the cone *)
  Definition ynor (t : yvert * yvert * yvert) : vec R 3 :=
    match t with (YB, _, _) => down | (YT, _, _) => e_z | (YRB j, _, _) | (YRT j, _, _) => wall j end.
  Definition knor (t : kvert * kvert * kvert) : vec R 3 :=
    match t with (KC, _, _) => down | (_, _, KR j) => side j | _ => rzero end.

  Lemma ynor_normal x y z : In (x, y, z) (map (ytri a) (ytags a)) -> rnorm (ynor (x, y, z)) = 1 /\
    exists l, 0 < l /\ rcross (rsub (ypos a r len y) (ypos a r len z)) (rsub (ypos a r len x) (ypos a r len z)) = rscale l (ynor (x, y, z)).
  Proof.
    intros H. apply in_map_iff in H as (t & E & Ht). apply ytags_ok in Ht. pose proof sin_half as s0. pose proof cos_half as c0.
    assert (R0 : 0 < 2 * (r * r) * (sin h * cos h)) by (repeat apply Rmult_lt_0_compat; lra). assert (R1 : 0 < 2 * (r * len) * sin h) by (repeat apply Rmult_lt_0_compat; lra).
    destruct t as [j|j|j|j]; cbn in Ht, E; injection E as <- <- <-; cbn [ypos ynor]; unfold cylindrical.
    - split; [exact down_unit|]. exists (2 * (r * r) * (sin h * cos h)). split; [exact R0|]. destruct (nxt_mid j Ht) as (-> & ->). destruct (azi_mid j) as (-> & ->). pose proof (one j) as K.
      unfold down. cbn. unfold mk3. repeat apply f_equal2; try reflexivity; try ring.
      transitivity (- (2 * (r * r) * (sin h * cos h) * (cos (mid j) * cos (mid j) + sin (mid j) * sin (mid j)))); [ring|rewrite K; ring].
    - split; [exact ez_unit|]. exists (2 * (r * r) * (sin h * cos h)). split; [exact R0|].
      assert (Hp : (prv a j < a)%nat) by (apply prv_lt; assumption). pose proof (nxt_mid (prv a j) Hp) as (E1 & E2). rewrite (nxt_prv a Ha j Ht) in E1, E2. rewrite E1, E2. destruct (azi_mid (prv a j)) as (-> & ->). pose proof (one (prv a j)) as K.
      unfold e_z. cbn. unfold mk3. repeat apply f_equal2; try reflexivity; try ring.
      transitivity (2 * (r * r) * (sin h * cos h) * (cos (mid (prv a j)) * cos (mid (prv a j)) + sin (mid (prv a j)) * sin (mid (prv a j)))); [ring|rewrite K; ring].
    - split; [apply wall_unit|]. exists (2 * (r * len) * sin h). split; [exact R1|]. destruct (nxt_mid j Ht) as (-> & ->). destruct (azi_mid j) as (-> & ->). unfold wall. coords.
    - split; [apply wall_unit|]. exists (2 * (r * len) * sin h). split; [exact R1|]. destruct (nxt_mid j Ht) as (-> & ->). destruct (azi_mid j) as (-> & ->). unfold wall. coords.
  Qed.
  Lemma knor_normal x y z : In (x, y, z) (map (ktri a) (ktags a)) -> rnorm (knor (x, y, z)) = 1 /\
    exists l, 0 < l /\ rcross (rsub (kpos a r len y) (kpos a r len z)) (rsub (kpos a r len x) (kpos a r len z)) = rscale l (knor (x, y, z)).
  Proof.
    intros H. apply in_map_iff in H as (t & E & Ht). apply ktags_ok in Ht. pose proof sin_half as s0. pose proof cos_half as c0. pose proof slant_pos as sl.
    destruct t as [j|j]; cbn in Ht, E; injection E as <- <- <-; cbn [kpos knor]; unfold cylindrical.
    - split; [exact down_unit|]. exists (2 * (r * r) * (sin h * cos h)). split; [repeat apply Rmult_lt_0_compat; lra|]. destruct (nxt_mid j Ht) as (-> & ->). destruct (azi_mid j) as (-> & ->). pose proof (one j) as K.
      unfold down. cbn. unfold mk3. repeat apply f_equal2; try reflexivity; try ring.
      transitivity (- (2 * (r * r) * (sin h * cos h) * (cos (mid j) * cos (mid j) + sin (mid j) * sin (mid j)))); [ring|rewrite K; ring].
    - split; [apply side_unit|]. exists (2 * r * sin h * slant). split; [repeat apply Rmult_lt_0_compat; lra|]. destruct (nxt_mid j Ht) as (-> & ->). destruct (azi_mid j) as (-> & ->). pose proof (one j) as K.
      unfold side. cbn. unfold mk3. repeat apply f_equal2; try reflexivity; try (field; lra).
      transitivity (2 * (r * r) * (sin h * cos h) * (cos (mid j) * cos (mid j) + sin (mid j) * sin (mid j))); [ring|rewrite K; field; lra].
  Qed.

  (** the normals that meet at a vertex *)
  Definition ymeet (v : yvert) : list (vec R 3) :=
    match v with YB => [down] | YT => [e_z] | YRB j => [down; wall (prv a j); wall j] | YRT j => [e_z; wall (prv a j); wall j] end.
  Definition kmeet (v : kvert) : list (vec R 3) :=
    match v with KC => [down] | KP => map side (seq 0 a) | KR j => [down; side (prv a j); side j] end.

  Lemma ytag_in t : ytag_ok a t -> In (ytri a t) (map (ytri a) (ytags a)).
  Proof. intros H. apply in_map, ytags_ok, H. Qed.
  Lemma ktag_in t : ktag_ok a t -> In (ktri a t) (map (ktri a) (ktags a)).
  Proof. intros H. apply in_map, ktags_ok, H. Qed.
  Lemma nxt_eq j k : (j < a)%nat -> k = nxt a j -> j = prv a k.
  Proof. intros Hj ->. symmetry. apply (prv_nxt a Ha), Hj. Qed.

  Lemma ymeet_spec v : yv_ok a v -> forall d, In d (ymeet v) <-> exists t, In t (map (ytri a) (ytags a)) /\ at_corner v t /\ d = ynor t.
  Proof.
    intros Hv d. split.
    - intros H. destruct v as [| |j|j]; cbn [ymeet yv_ok] in *.
      + destruct H as [<-|[]]. exists (ytri a (YCB 0)). split; [apply ytag_in; cbn; lia|]. cbn. auto.
      + destruct H as [<-|[]]. exists (ytri a (YCT 0)). split; [apply ytag_in; cbn; lia|]. cbn. auto.
      + assert (Hp : (prv a j < a)%nat) by (apply prv_lt; assumption). destruct H as [<-|[<-|[<-|[]]]].
        * exists (ytri a (YCB j)). split; [apply ytag_in; exact Hv|]. cbn. auto.
        * exists (ytri a (YM (prv a j))). split; [apply ytag_in; exact Hp|]. cbn. rewrite (nxt_prv a Ha j Hv). auto.
        * exists (ytri a (YM j)). split; [apply ytag_in; exact Hv|]. cbn. auto.
      + assert (Hp : (prv a j < a)%nat) by (apply prv_lt; assumption). destruct H as [<-|[<-|[<-|[]]]].
        * exists (ytri a (YCT j)). split; [apply ytag_in; exact Hv|]. cbn. auto.
        * exists (ytri a (YN (prv a j))). split; [apply ytag_in; exact Hp|]. cbn. rewrite (nxt_prv a Ha j Hv). auto.
        * exists (ytri a (YN j)). split; [apply ytag_in; exact Hv|]. cbn. auto.
    - intros (t & Ht & Hc & ->). apply in_map_iff in Ht as (g & <- & Hg). apply ytags_ok in Hg.
      destruct g as [j|j|j|j]; cbn in Hg, Hc; destruct Hc as [-> | [-> | ->]]; cbn; try tauto; rewrite ?(prv_nxt a Ha j Hg); tauto.
  Qed.
  Lemma kmeet_spec v : kv_ok a v -> forall d, In d (kmeet v) <-> exists t, In t (map (ktri a) (ktags a)) /\ at_corner v t /\ d = knor t.
  Proof.
    intros Hv d. split.
    - intros H. destruct v as [| |j]; cbn [kmeet kv_ok] in *.
      + destruct H as [<-|[]]. exists (ktri a (KB 0)). split; [apply ktag_in; cbn; lia|]. cbn. auto.
      + apply in_map_iff in H as (j & <- & Hj). apply in_seq in Hj. exists (ktri a (KM j)). split; [apply ktag_in; cbn; lia|]. cbn. auto.
      + assert (Hp : (prv a j < a)%nat) by (apply prv_lt; assumption). destruct H as [<-|[<-|[<-|[]]]].
        * exists (ktri a (KB j)). split; [apply ktag_in; exact Hv|]. cbn. auto.
        * exists (ktri a (KM (prv a j))). split; [apply ktag_in; exact Hp|]. cbn. rewrite (nxt_prv a Ha j Hv). auto.
        * exists (ktri a (KM j)). split; [apply ktag_in; exact Hv|]. cbn. auto.
    - intros (t & Ht & Hc & ->). apply in_map_iff in Ht as (g & <- & Hg). apply ktags_ok in Hg.
      destruct g as [j|j]; cbn in Hg, Hc; destruct Hc as [-> | [-> | ->]]; cbn [kmeet ktri knor]; rewrite ?(prv_nxt a Ha j Hg); cbn [In]; try tauto.
      apply in_map_iff. exists j. split; [reflexivity|apply in_seq; lia].
  Qed.

  (** no normal is repeated *)
  Lemma wall_dot j k : wall j = wall k -> cos (mid j) = cos (mid k) /\ sin (mid j) = sin (mid k).
  Proof. unfold wall. intros E. injection E as E1 E2. auto. Qed.
  Lemma mid_inj j k : (j < a)%nat -> (k < a)%nat -> cos (mid j) = cos (mid k) -> sin (mid j) = sin (mid k) -> j = k.
  Proof.
    intros Hj Hk E1 E2. apply (azi_inj a Ha j k Hj Hk); [destruct (azi_mid j) as (-> & _), (azi_mid k) as (-> & _)|destruct (azi_mid j) as (_ & ->), (azi_mid k) as (_ & ->)]; rewrite E1, E2; reflexivity.
  Qed.
  Lemma wall_inj j k : (j < a)%nat -> (k < a)%nat -> wall j = wall k -> j = k.
  Proof. intros Hj Hk E. apply wall_dot in E as (E1 & E2). exact (mid_inj j k Hj Hk E1 E2). Qed.
  Lemma side_inj j k : (j < a)%nat -> (k < a)%nat -> side j = side k -> j = k.
  Proof.
    intros Hj Hk E. unfold side in E. injection E as E1 E2. pose proof slant_pos. assert (0 < len / slant) by (apply Rdiv_lt_0_compat; lra).
    apply (mid_inj j k Hj Hk); apply Rmult_eq_reg_l with (len / slant); lra.
  Qed.
  Lemma prv_ne j : (j < a)%nat -> prv a j <> j.
  Proof. intros Hj. unfold prv. destruct (Nat.eqb_spec j 0); lia. Qed.
  Lemma ymeet_NoDup v : yv_ok a v -> NoDup (ymeet v).
  Proof.
    intros Hv. destruct v as [| |j|j]; cbn [ymeet yv_ok] in *; try (solve [constructor; [intros []|constructor]]).
    - constructor; [|constructor; [|constructor; [intros []|constructor]]]; cbn [In].
      + intros [E|[E|[]]]; unfold wall, down in E; injection E as _ _ E; lra.
      + intros [E|[]]. apply wall_inj in E; [symmetry in E; exact (prv_ne j Hv E)|exact Hv|apply prv_lt; assumption].
    - constructor; [|constructor; [|constructor; [intros []|constructor]]]; cbn [In].
      + intros [E|[E|[]]]; unfold wall, e_z in E; injection E as _ _ E; lra.
      + intros [E|[]]. apply wall_inj in E; [symmetry in E; exact (prv_ne j Hv E)|exact Hv|apply prv_lt; assumption].
  Qed.
  Lemma NoDup_map_on {X Y} (f : X -> Y) l : (forall x y, In x l -> In y l -> f x = f y -> x = y) -> NoDup l -> NoDup (map f l).
  Proof.
    induction l as [|x l IH]; intros Hf Hn; cbn; [constructor|]. inversion Hn as [|? ? N1 N2]. subst. constructor.
    - intros H. apply in_map_iff in H as (y & E & Hy). apply N1. rewrite <- (Hf y x); [exact Hy|right; exact Hy|left; reflexivity|exact E].
    - apply IH; [|exact N2]. intros y z Hy Hz. apply Hf; right; assumption.
  Qed.
  Lemma kmeet_NoDup v : kv_ok a v -> NoDup (kmeet v).
  Proof.
    pose proof slant_pos as sl. pose proof cos_half as c0. intros Hv. destruct v as [| |j]; cbn [kmeet kv_ok] in *; try (solve [constructor; [intros []|constructor]]).
    - apply NoDup_map_on; [|apply seq_NoDup]. intros x y Hx Hy. apply in_seq in Hx, Hy. apply side_inj; lia.
    - assert (K : 0 < r * cos h / slant) by (apply Rdiv_lt_0_compat; [apply Rmult_lt_0_compat; lra|lra]). constructor; [|constructor; [|constructor; [intros []|constructor]]]; cbn [In].
      + intros [E|[E|[]]]; unfold side, down in E; injection E as _ _ E; lra.
      + intros [E|[]]. apply side_inj in E; [symmetry in E; exact (prv_ne j Hv E)|exact Hv|apply prv_lt; assumption].
  Qed.

  (** their sums *)
  Lemma ysum_rim j : (j < a)%nat -> rsum (ymeet (YRB j)) = radd (rscale (2 * cos h) (spoke j)) (rscale (-1) e_z) /\ rsum (ymeet (YRT j)) = radd (rscale (2 * cos h) (spoke j)) e_z.
  Proof.
    intros Hj. cbn [ymeet rsum fold_right]. unfold wall, spoke, down, e_z, rzero. destruct (mid_prv j Hj) as (-> & ->), (mid_azi j) as (-> & ->). split; coords.
  Qed.
  Lemma ksum_rim j : (j < a)%nat -> rsum (kmeet (KR j)) = radd (rscale (2 * cos h * (len / slant)) (spoke j)) (rscale (2 * cos h * (r / slant) - 1) e_z).
  Proof.
    pose proof slant_pos as sl. intros Hj. cbn [kmeet rsum fold_right]. unfold side, spoke, down, e_z, rzero. destruct (mid_prv j Hj) as (-> & ->), (mid_azi j) as (-> & ->).
    cbn. unfold mk3. apply f_equal2; [field; lra|apply f_equal2; [field; lra|apply f_equal2; [field; lra|reflexivity]]].
  Qed.
  Lemma sum_sides n : rsum (map side (seq 0 n)) =
    ((len / slant * sin (azi a n) / (2 * sin h), (len / slant * (1 - cos (azi a n)) / (2 * sin h), (INR n * (r * cos h / slant), tt))) : vec R 3).
  Proof.
    pose proof sin_half as s0. pose proof slant_pos as sl. induction n as [|n IH].
    - unfold azi. cbn [seq map rsum fold_right INR]. rewrite Rmult_0_l, sin_0, cos_0. unfold rzero. cbn. apply f_equal2; [field; lra|apply f_equal2; [field; lra|apply f_equal2; [field; lra|reflexivity]]].
    - rewrite seq_S, map_app. cbn [map Nat.add]. assert (RA : forall (l1 l2 : list (vec R 3)), rsum (l1 ++ l2) = radd (rsum l1) (rsum l2)).
      { clear. intros l1 l2. induction l1 as [|x l IH]; cbn [app rsum fold_right]; [destruct (fold_right radd rzero l2) as (x1 & x2 & x3 & []) eqn:E; change (rsum l2) with (fold_right radd rzero l2); rewrite E; unfold rzero; coords|].
        unfold rsum in IH. rewrite IH. unfold rsum. generalize (fold_right radd rzero l), (fold_right radd rzero l2). intros u v. destruct x as (? & ? & ? & []), u as (? & ? & ? & []), v as (? & ? & ? & []). coords. }
      rewrite RA, IH. assert (EA : azi a (S n) = mid n + h) by (unfold mid, azi; rewrite S_INR, step_half; ring). rewrite EA, S_INR. destruct (azi_mid n) as (-> & ->). rewrite cos_plus, sin_plus.
      unfold side, rzero. cbn. apply f_equal2; [field; lra|apply f_equal2; [field; lra|apply f_equal2; [field; lra|reflexivity]]].
  Qed.
  Lemma ksum_apex : rsum (kmeet KP) = rscale (INR a * (r * cos h / slant)) e_z.
  Proof.
    cbn [kmeet]. rewrite sum_sides. unfold azi. rewrite (azi_full a Ha), sin_2PI, cos_2PI. pose proof sin_half as s0. pose proof slant_pos as sl. unfold e_z. cbn. apply f_equal2; [field; lra|apply f_equal2; [field; lra|apply f_equal2; [field; lra|reflexivity]]].
  Qed.
  Lemma rim_sum_ne j x y : 0 < x -> radd (rscale x (spoke j)) (rscale y e_z) <> rzero.
  Proof.
    intros Hx E. pose proof (f_equal (fun u => rdot u (spoke j)) E) as K. cbv beta in K. rewrite rdot_zero_l in K.
    assert (Q : rdot (radd (rscale x (spoke j)) (rscale y e_z)) (spoke j) = x * (cos (azi a j) * cos (azi a j) + sin (azi a j) * sin (azi a j))) by (unfold spoke, e_z; cbn; ring).
    rewrite Q in K. pose proof (sin2_cos2 (azi a j)) as K2. unfold Rsqr in K2. rewrite (Rplus_comm (sin _ * _)) in K2. rewrite K2 in K. lra.
  Qed.
  (** the normals against the spokes *)
  Lemma wall_spoke j : (j < a)%nat -> rdot (wall j) (spoke j) = cos h /\ rdot (wall j) (spoke (nxt a j)) = cos h.
  Proof.
    intros Hj. unfold wall, spoke. destruct (nxt_mid j Hj) as (-> & ->), (azi_mid j) as (-> & ->). pose proof (one j) as K. cbn. split.
    - transitivity (cos h * (cos (mid j) * cos (mid j) + sin (mid j) * sin (mid j))); [ring|rewrite K; ring].
    - transitivity (cos h * (cos (mid j) * cos (mid j) + sin (mid j) * sin (mid j))); [ring|rewrite K; ring].
  Qed.
  Lemma side_spoke j : (j < a)%nat -> rdot (side j) (spoke j) = len / slant * cos h /\ rdot (side j) (spoke (nxt a j)) = len / slant * cos h.
  Proof.
    intros Hj. destruct (wall_spoke j Hj) as (E1 & E2). rewrite <- E1 at 1. rewrite <- E2. unfold side, wall, spoke. cbn. split; ring.
  Qed.
  Lemma side_axis j : rdot (side j) e_z = r * cos h / slant.
  Proof. unfold side, e_z. cbn. ring. Qed.
End Local.

(** ** In space *)
Section Turned.
  Context (A : vec (vec R 3) 3) (dir : vec R 3) (HA : rotation_onto A dir).
  Notation lin := (affine A rzero).

  Lemma lin_sum (l : list (vec R 3)) : rsum (map lin l) = lin (rsum l).
  Proof.
    induction l as [|x l IH]; cbn [map rsum fold_right]; [clear; aff A|]. unfold rsum in IH. rewrite IH. symmetry. apply lin_add.
  Qed.
  Lemma lin_inj (u v : vec R 3) : lin u = lin v -> u = v.
  Proof. apply rigid_inj, HA. Qed.
  Lemma lin_zero : lin rzero = rzero.
  Proof. clear. aff A. Qed.
  Lemma lin_nonzero (u : vec R 3) : u <> rzero -> lin u <> rzero.
  Proof. intros H E. apply H, lin_inj. rewrite E, lin_zero. reflexivity. Qed.
  Lemma lin_down : lin down = rscale (-1) dir.
  Proof. destruct HA as (_ & _ & <-). rewrite <- (lin_scale A). f_equal. unfold down, e_z. coords. Qed.
  Lemma lin_ez : lin e_z = dir.
  Proof. apply HA. Qed.
  Lemma dir_unit : rnorm dir = 1.
  Proof. rewrite <- lin_ez, (lin_norm A (proj1 HA)). exact ez_unit. Qed.
  Lemma lin_rigid_dot (u v : vec R 3) : rdot (lin u) (lin v) = rdot u v.
  Proof. apply (lin_dot A (proj1 HA)). Qed.
  (** the direction from the centre of a rim to one of its points *)
  Lemma rim_direction a r c j : 0 < r -> rdirection (rsub (affine A c (cylindrical r (azi a j) 0)) c) = lin (spoke a j).
  Proof.
    intros Hr. assert (E : rsub (affine A c (cylindrical r (azi a j) 0)) c = rscale r (lin (spoke a j))).
    { rewrite <- (lin_scale A). unfold cylindrical, spoke. clear. aff A. }
    rewrite E. unfold rdirection. rewrite rnorm_scale, (lin_norm A (proj1 HA)), spoke_unit, Rmult_1_r, Rabs_right by lra.
    destruct (lin (spoke a j)) as (x & y & z & []). cbn. apply f_equal2; [field; lra|apply f_equal2; [field; lra|apply f_equal2; [field; lra|reflexivity]]].
  Qed.
End Turned.
Lemma along_unit (u w : vec R 3) : rnorm u = 1 -> rnorm w = 1 -> 1 <= rdot u w -> u = w.
Proof.
  intros Hu Hw Hd. apply rdist_zero. apply Rle_antisym; [|apply rdist_nonneg]. pose proof (unit_near u w 1 Hu Hw Hd) as K.
  assert (0 <= rdist u w) by apply rdist_nonneg. nra.
Qed.
Lemma unit_direction_id (u : vec R 3) l : rnorm u = 1 -> 0 < l -> rdirection (rscale l u) = u.
Proof.
  intros Hu Hl. unfold rdirection. rewrite rnorm_scale, Hu, Rmult_1_r, Rabs_right by lra. destruct u as (x & y & z & []). cbn.
  apply f_equal2; [field; lra|apply f_equal2; [field; lra|apply f_equal2; [field; lra|reflexivity]]].
Qed.
