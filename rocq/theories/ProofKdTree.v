(** * Proofs about KdTree *)

From Coq Require Import List Arith Bool Lia Permutation Reals Lra Psatz.
From Verif Require Import Scalar Linal Result ModelKdTree SpecKdTree SpecReal VecR.
Import ListNotations.

Section Generic.
  Context {S : Scalar} (L : Linal S) (n : nat) {P : Type} (SZ : nat).

  Notation tree := (@tree S n P).

  Fixpoint elements (t : tree) : list (vec S n * P) :=
    match t with
    | Leaf => []
    | Node p v l r => (p, v) :: elements l ++ elements r
    end.

  Definition tpts (t : tree) := map fst (elements t).

  (** search tree invariant: the left subtree holds exactly the smaller ones *)
  Fixpoint ordered (d : nat) (t : tree) : Prop :=
    match t with
    | Leaf => True
    | Node p v l r =>
        (forall x, In x (tpts l) -> sltb (vnth s0 (d mod n) x) (vnth s0 (d mod n) p) = true) /\
        (forall x, In x (tpts r) -> sltb (vnth s0 (d mod n) x) (vnth s0 (d mod n) p) = false) /\
        ordered (next_depth SZ d) l /\ ordered (next_depth SZ d) r
    end.

  Context (G : vec S n -> Prop) (HG : veq_on L G).

  Lemma tpts_node p v (l r : tree) : tpts (Node p v l r) = p :: tpts l ++ tpts r.
  Proof. unfold tpts; cbn. now rewrite map_app. Qed.

  Lemma veq_true p q : G p -> G q -> veq L p q = true -> p = q.
  Proof. intros; now apply HG. Qed.
  Lemma veq_refl p : G p -> veq L p p = true.
  Proof. intros; now apply HG. Qed.

  Lemma search_iff t : forall d p,
    ordered d t -> (forall x, In x (tpts t) -> G x) -> G p ->
    (searchHelper L n SZ t p d = true <-> In p (tpts t)).
  Proof.
    induction t as [|q w l IHl r IHr]; intros d p Ho Hg Hp.
    - cbn; split; [discriminate|tauto].
    - cbn [searchHelper]. rewrite tpts_node in *.
      destruct Ho as (Hl & Hr & Ol & Or).
      destruct (veq L q p) eqn:E.
      + apply veq_true in E; [|apply Hg; now left|assumption]. subst; split; [now left|reflexivity].
      + assert (Hne : q <> p).
        { intros <-. rewrite veq_refl in E; [discriminate|assumption]. }
        destruct (sltb (vnth s0 (d mod n) p) (vnth s0 (d mod n) q)) eqn:E2.
        * rewrite IHl; auto.
          -- split; intros H; [right; apply in_or_app; now left|].
             destruct H as [H|H]; [contradiction|]. apply in_app_or in H as [H|H]; [assumption|].
             apply Hr in H. congruence.
          -- intros; apply Hg; right; apply in_or_app; now left.
        * rewrite IHr; auto.
          -- split; intros H; [right; apply in_or_app; now right|].
             destruct H as [H|H]; [contradiction|]. apply in_app_or in H as [H|H]; [|assumption].
             apply Hl in H. congruence.
          -- intros; apply Hg; right; apply in_or_app; now right.
  Qed.

  Lemma insert_spec t : forall d p v t' b,
    ordered d t -> (forall x, In x (tpts t) -> G x) -> G p ->
    insertHelper L n SZ t p v d = (t', b) ->
    ordered d t' /\
    ((b = true /\ ~ In p (tpts t) /\ Permutation (elements t') ((p, v) :: elements t)) \/
     (b = false /\ In p (tpts t) /\ t' = t)).
  Proof.
    induction t as [|q w l IHl r IHr]; intros d p v t' b Ho Hg Hp H.
    - cbn in H. injection H as <- <-. split.
      + cbn; repeat split; intros x [].
      + left; cbn; auto.
    - cbn [insertHelper] in H. rewrite tpts_node in *.
      pose proof Ho as (Hl & Hr & Ol & Or).
      destruct (veq L q p) eqn:E.
      { injection H as <- <-. apply veq_true in E; [|apply Hg; now left|assumption]. subst.
        split; [assumption|]. right; repeat split; auto. now left. }
      assert (Hne : q <> p).
      { intros <-. rewrite veq_refl in E; [discriminate|assumption]. }
      destruct (sltb (vnth s0 (d mod n) p) (vnth s0 (d mod n) q)) eqn:E2.
      + destruct (insertHelper L n SZ l p v (next_depth SZ d)) as [l' b'] eqn:El.
        injection H as <- <-.
        destruct (IHl _ _ _ _ _ Ol ltac:(intros; apply Hg; right; apply in_or_app; now left) Hp El) as [Ol' Hcase].
        destruct Hcase as [(-> & Hn & Hperm)|(-> & Hi & ->)].
        * split.
          -- split; [|auto]. intros x Hx. unfold tpts in Hx.
             apply (Permutation_in x (Permutation_map fst Hperm)) in Hx.
             cbn in Hx. destruct Hx as [<-|Hx]; auto.
          -- left; repeat split; auto.
             ++ intros [H|H]; [auto|]. apply in_app_or in H as [H|H]; [auto|].
                apply Hr in H; congruence.
             ++ cbn. rewrite Hperm. cbn. apply perm_swap.
        * split; [assumption|]. right; repeat split; auto. right; apply in_or_app; now left.
      + destruct (insertHelper L n SZ r p v (next_depth SZ d)) as [r' b'] eqn:Er.
        injection H as <- <-.
        destruct (IHr _ _ _ _ _ Or ltac:(intros; apply Hg; right; apply in_or_app; now right) Hp Er) as [Or' Hcase].
        destruct Hcase as [(-> & Hn & Hperm)|(-> & Hi & ->)].
        * split.
          -- split; [auto|split; [|auto]]. intros x Hx. unfold tpts in Hx.
             apply (Permutation_in x (Permutation_map fst Hperm)) in Hx.
             cbn in Hx. destruct Hx as [<-|Hx]; auto.
          -- left; repeat split; auto.
             ++ intros [H|H]; [auto|]. apply in_app_or in H as [H|H]; [|auto].
                apply Hl in H; congruence.
             ++ cbn. rewrite Hperm. rewrite <- Permutation_middle. apply perm_swap.
        * split; [assumption|]. right; repeat split; auto. right; apply in_or_app; now right.
  Qed.

  (** state invariant after a history *)
  Record inv (hist : list (op S n P)) (t : kdtree S n P) : Prop := {
    inv_ord : ordered 0 (root t);
    inv_nodup : NoDup (tpts (root t));
    inv_pts : forall p, In p (tpts (root t)) <-> In p (points hist);
    inv_pay : forall p v, In (p, v) (elements (root t)) -> first_payload (inserted hist) p v;
    inv_size : msize t = length (elements (root t)) mod SZ
  }.

  Lemma inserted_app h1 h2 : inserted (h1 ++ h2) = inserted h1 ++ @inserted S n P h2.
  Proof.
    induction h1 as [|o h IH]; cbn; [reflexivity|].
    destruct o; cbn; rewrite IH; reflexivity.
  Qed.
  Lemma points_app h1 h2 : points (h1 ++ h2) = points h1 ++ @points S n P h2.
  Proof. unfold points. now rewrite inserted_app, map_app. Qed.

  Lemma first_payload_app (l1 l2 : list (vec S n * P)) p v :
    first_payload l1 p v -> first_payload (l1 ++ l2) p v.
  Proof.
    intros (a & b & -> & H). exists a, (b ++ l2). split; [|assumption].
    now rewrite <- app_assoc.
  Qed.

  Lemma inv_query hist t o :
    inserted [o] = [] -> inv hist t -> inv (hist ++ [o]) t.
  Proof.
    intros Ho [H1 H2 H3 H4 H5]; split; auto.
    - intros p. rewrite H3, points_app. unfold points at 3. rewrite Ho, app_nil_r. reflexivity.
    - intros p v Hin. rewrite inserted_app, Ho, app_nil_r. auto.
  Qed.

  Context (HSZ : SZ <> 0).

  Lemma inv_step hist t o :
    inv hist t ->
    (forall p, In p (points hist) -> G p) ->
    (forall p, In p (op_points o) -> G p) ->
    inv (hist ++ [o]) (fst (step L SZ t o)).
  Proof.
    intros HI Hg Ho.
    destruct o as [p v|p| | |q]; try (apply inv_query; [reflexivity|exact HI]).
    cbn [step]. unfold insert.
    destruct HI as [H1 H2 H3 H4 H5].
    destruct (insertHelper L n SZ (root t) p v 0) as [r b] eqn:E. cbn.
    apply insert_spec in E; auto.
    2: { intros x Hx; apply Hg, H3, Hx. }
    2: { apply Ho; now left. }
    destruct E as [Or [(-> & Hn & Hp)|(-> & Hi & ->)]].
    - assert (Hpt : Permutation (tpts r) (p :: tpts (root t))).
      { unfold tpts. now rewrite Hp. }
      split; cbn.
      + exact Or.
      + eapply Permutation_NoDup; [symmetry; exact Hpt|]. constructor; auto.
      + intros x. rewrite points_app, in_app_iff. cbn.
        split; intros H.
        * eapply Permutation_in in H; [|exact Hpt]. destruct H as [<-|H]; [auto|].
          left; now apply H3.
        * eapply Permutation_in; [symmetry; exact Hpt|].
          destruct H as [H|[<-|[]]]; [right; now apply H3|now left].
      + intros x w H. eapply Permutation_in in H; [|exact Hp].
        rewrite inserted_app. cbn in H. destruct H as [[= <- <-]|H].
        * exists (inserted hist), []. split; [reflexivity|].
          intros Hc. apply Hn, H3. exact Hc.
        * apply first_payload_app. now apply H4.
      + rewrite (Permutation_length Hp). cbn. rewrite H5.
        rewrite Nat.add_1_r, <- Nat.add_1_l, Nat.add_mod_idemp_r; [reflexivity|exact HSZ].
    - split; cbn; auto.
      + intros x. rewrite points_app, in_app_iff. cbn. rewrite H3.
        split; intros H; [auto|]. destruct H as [H|[<-|[]]]; [auto|now apply H3].
      + intros x w H. rewrite inserted_app. apply first_payload_app; auto.
  Qed.

  Lemma run_app (h1 h2 : list (op S n P)) : run L SZ (h1 ++ h2) = fold_left (fun t o => fst (step L SZ t o)) h2 (run L SZ h1).
  Proof. unfold run. apply fold_left_app. Qed.

  Lemma inv_run hist :
    (forall p, In p (points hist) -> G p) ->
    (forall o, In o hist -> forall p, In p (op_points o) -> G p) ->
    inv hist (run L SZ hist).
  Proof.
    induction hist as [|o hist IH] using rev_ind; intros Hg Ho.
    - split; cbn; auto; try tauto.
      + constructor.
      + now rewrite Nat.mod_0_l.
    - rewrite run_app. cbn. apply inv_step.
      + apply IH.
        * intros p Hp. apply Hg. rewrite points_app. apply in_or_app; now left.
        * intros o' Hin. apply Ho, in_or_app; now left.
      + intros p Hp. apply Hg. rewrite points_app. apply in_or_app; now left.
      + apply Ho, in_or_app; right; now left.
  Qed.

  (** what nearestHelper returns is the old best or an element of the tree *)
  Lemma nearest_from t : forall here q b d,
    let b' := nearestHelper n SZ t here q b d in
    b' = b \/ (In (b_point b', b_payload b') (elements t) /\ b_dist b' = kd_distance (b_point b') q).
  Proof.
    induction t as [|p v l IHl r IHr]; intros here q b d; cbn [nearestHelper].
    - now left.
    - set (b1 := if sltb (kd_distance p q) (b_dist b) then mkBest here p v (kd_distance p q) else b).
      assert (H1 : b1 = b \/ (In (b_point b1, b_payload b1) (elements (Node p v l r)) /\
                              b_dist b1 = kd_distance (b_point b1) q)).
      { unfold b1; destruct (sltb _ _); [right; cbn; auto|now left]. }
      clearbody b1.
      set (c := sltb (ssub (vnth s0 (d mod n) q) (vnth s0 (d mod n) p)) s0).
      assert (Hgo : forall (right : bool) b0,
        (b0 = b \/ (In (b_point b0, b_payload b0) (elements (Node p v l r)) /\
                    b_dist b0 = kd_distance (b_point b0) q)) ->
        let b' := if right then nearestHelper n SZ r (here ++ [true]) q b0 (next_depth SZ d)
                  else nearestHelper n SZ l (here ++ [false]) q b0 (next_depth SZ d) in
        b' = b \/ (In (b_point b', b_payload b') (elements (Node p v l r)) /\
                   b_dist b' = kd_distance (b_point b') q)).
      { intros [] b0 Hb0; cbn zeta.
        - destruct (IHr (here ++ [true]) q b0 (next_depth SZ d)) as [->|[Hi Hd]]; [assumption|].
          right; split; [|assumption]. cbn. right; apply in_or_app; now right.
        - destruct (IHl (here ++ [false]) q b0 (next_depth SZ d)) as [->|[Hi Hd]]; [assumption|].
          right; split; [|assumption]. cbn. right; apply in_or_app; now left. }
      pose proof (Hgo (negb c) b1 H1) as H2. cbn zeta in H2.
      set (b2 := if negb c then _ else _) in *. clearbody b2.
      cbn zeta. destruct (sltb (sabs _) (b_dist b2)).
      + exact (Hgo c b2 H2).
      + exact H2.
  Qed.

  Lemma kd_spec_holds (hist : list (op S n P)) (o : op S n P) :
    (forall p, In p (points hist) -> G p) ->
    (forall o', In o' (o :: hist) -> forall p, In p (op_points o') -> G p) ->
    kd_spec SZ hist o (snd (step L SZ (run L SZ hist) o)).
  Proof.
    intros Hg Ho.
    assert (HI : inv hist (run L SZ hist)).
    { apply inv_run; [assumption|]. intros o' Hin; apply Ho; now right. }
    set (t := run L SZ hist) in *. clearbody t.
    pose proof HI as [H1 H2 H3 H4 H5].
    assert (Hgt : forall x, In x (tpts (root t)) -> G x) by (intros x Hx; apply Hg, H3, Hx).
    assert (Hcount : distinct_count (points hist) (length (elements (root t)))).
    { exists (tpts (root t)). split; [assumption|]. split; [exact H3|]. unfold tpts; apply map_length. }
    destruct o as [p v|p| | |q]; cbn [step kd_spec snd].
    - unfold insert. destruct (insertHelper L n SZ (root t) p v 0) as [r b] eqn:E. cbn.
      apply insert_spec in E; auto.
      2: { apply (Ho (OpInsert p v)); now left. }
      exists b. split; [reflexivity|]. rewrite <- H3.
      destruct E as [Or [(-> & Hn & Hp)|(-> & Hi & ->)]]; [tauto|].
      split; [discriminate|contradiction].
    - exists (search L SZ t p). split; [reflexivity|]. rewrite <- H3. apply search_iff; auto.
      apply (Ho (OpSearch p)); now left.
    - exists (length (elements (root t))). split; [assumption|]. unfold size. now rewrite H5.
    - exists (length (elements (root t))), (empty t). split; [assumption|]. split; [reflexivity|].
      unfold empty. rewrite Nat.eqb_eq, H5. reflexivity.
    - unfold nearest. destruct (root t) as [|p v l r] eqn:Er.
      + left; split; [|reflexivity].
        destruct (points hist) as [|x ?] eqn:Ep; [reflexivity|exfalso].
        apply (H3 x). now left.
      + right. set (b0 := mkBest [] p v (kd_distance q p)).
        set (b' := nearestHelper _ _ _ _ _ _ _).
        exists (b_point b'), (b_payload b'). split; [reflexivity|].
        apply H4.
        destruct (nearest_from (Node p v l r) [] q b0 0) as [E|[E _]]; fold b' in E.
        * rewrite E. cbn; now left.
        * exact E.
  Qed.
End Generic.

(** ** nearest: branch and bound, for any arithmetic in which the splitting
    coordinate bounds the distance *)
Section Nearest.
  Context {S : Scalar} (n : nat) {P : Type} (SZ : nat).
  Notation tree := (@tree S n P).

  Definition sle (a b : S) : Prop := sltb b a = false.

  Context (G : vec S n -> Prop) (V : S -> Prop) (q : vec S n).
  Context (Hdist : forall p, G p -> V (kd_distance p q))
          (Hle_trans : forall a b c, V a -> V b -> V c -> sle a b -> sle b c -> sle a c)
          (Hlt_le : forall a b, V a -> V b -> sltb a b = true -> sle a b)
          (Hle_refl : forall a, V a -> sle a a).

  (** the pruning test is safe *)
  Context (Hprune : forall d p x bd, G p -> G x -> V bd ->
    sltb (vnth s0 (d mod n) x) (vnth s0 (d mod n) p) =
      negb (sltb (ssub (vnth s0 (d mod n) q) (vnth s0 (d mod n) p)) s0) ->
    sltb (sabs (ssub (vnth s0 (d mod n) q) (vnth s0 (d mod n) p))) bd = false ->
    sle bd (kd_distance x q)).

  Lemma nearest_min (t : tree) : forall here b d,
    ordered n SZ d t -> (forall x, In x (tpts n t) -> G x) -> V (b_dist b) ->
    let b' := nearestHelper n SZ t here q b d in
    V (b_dist b') /\ sle (b_dist b') (b_dist b) /\
    (forall x, In x (tpts n t) -> sle (b_dist b') (kd_distance x q)).
  Proof.
    induction t as [|p v l IHl r IHr]; intros here b d Ho Hg Hb.
    - cbn. split; [assumption|]. split; [now apply Hle_refl|tauto].
    - cbn [nearestHelper].
      destruct Ho as (Hl & Hr & Ol & Or).
      assert (Gp : G p) by (apply Hg; rewrite tpts_node; now left).
      assert (Gl : forall x, In x (tpts n l) -> G x).
      { intros x Hx; apply Hg; rewrite tpts_node; right; apply in_or_app; now left. }
      assert (Gr : forall x, In x (tpts n r) -> G x).
      { intros x Hx; apply Hg; rewrite tpts_node; right; apply in_or_app; now right. }
      set (b1 := if sltb (kd_distance p q) (b_dist b) then mkBest here p v (kd_distance p q) else b).
      assert (H1 : V (b_dist b1) /\ sle (b_dist b1) (b_dist b) /\ sle (b_dist b1) (kd_distance p q)).
      { pose proof (Hdist p Gp). unfold b1; destruct (sltb _ _) eqn:E; cbn; auto. }
      clearbody b1.
      pose proof (fun x bd (Gx : G x) (Vb : V bd) => Hprune d p x bd Gp Gx Vb) as HP.
      set (diff := ssub (vnth s0 (d mod n) q) (vnth s0 (d mod n) p)) in *.
      set (d' := next_depth SZ d) in *.
      assert (Hmain : forall (right : bool) bb,
        V (b_dist bb) ->
        let b' := if right then nearestHelper n SZ r (here ++ [true]) q bb d'
                  else nearestHelper n SZ l (here ++ [false]) q bb d' in
        V (b_dist b') /\ sle (b_dist b') (b_dist bb) /\
        (forall x, In x (tpts n (if right then r else l)) -> sle (b_dist b') (kd_distance x q))).
      { intros [] bb Vbb; cbn zeta; [apply IHr|apply IHl]; auto. }
      destruct H1 as (V1 & L1 & L1p).
      destruct (Hmain (negb (sltb diff s0)) b1 V1) as (V2 & L2 & M2).
      set (b2 := if negb (sltb diff s0) then _ else _) in *. clearbody b2.
      cbn zeta.
      destruct (sltb (sabs diff) (b_dist b2)) eqn:Ep.
      + destruct (Hmain (sltb diff s0) b2 V2) as (V3 & L3 & M3).
        set (b3 := if sltb diff s0 then _ else _) in *. clearbody b3.
        split; [assumption|]. split.
        { eapply Hle_trans with (b := b_dist b2); eauto. }
        intros x Hx. rewrite tpts_node in Hx. destruct Hx as [<-|Hx].
        * eapply Hle_trans with (b := b_dist b2); eauto;
          eapply Hle_trans with (b := b_dist b1); eauto.
        * assert (Gx : G x) by (apply in_app_or in Hx as [Hx|Hx]; auto).
          destruct (sltb diff s0); cbn in *; apply in_app_or in Hx as [Hx|Hx]; auto;
            eapply Hle_trans with (b := b_dist b2); eauto.
      + split; [assumption|]. split.
        { eapply Hle_trans with (b := b_dist b1); eauto. }
        intros x Hx. rewrite tpts_node in Hx. destruct Hx as [<-|Hx].
        * eapply Hle_trans with (b := b_dist b1); eauto.
        * apply in_app_or in Hx.
          destruct (sltb diff s0) eqn:Ec; cbn in *; destruct Hx as [Hx|Hx]; auto; apply HP; auto.
  Qed.
End Nearest.

(** ** exact reals *)
Local Open Scope R_scope.

Lemma sqsum_R M m (acc : R) (a b : vec R m) :
  @sqsum (RS M) acc m a b = acc + rdot (rsub a b) (rsub a b).
Proof.
  revert acc; induction m as [|m IH]; intros acc; cbn; [ring|].
  rewrite IH. unfold rsub. ring.
Qed.

Lemma kd_distance_R M n (a b : vec R n) : @kd_distance (RS M) n a b = rdist a b.
Proof.
  unfold kd_distance. rewrite sqsum_R. cbn. unfold rdist, rnorm. f_equal. ring.
Qed.

Lemma vnth_diff_le n i (a b : vec R n) : Rabs (vnth 0 i a - vnth 0 i b) <= rdist a b.
Proof.
  apply sq_le_abs; [apply rdist_nonneg|]. rewrite rdist_sq.
  revert i; induction n as [|n IH]; intros i; cbn.
  - ring_simplify. lra.
  - destruct i as [|i].
    + pose proof (rdot_self_nonneg (rsub (snd a) (snd b))). unfold rsub in *. lra.
    + specialize (IH (snd a) (snd b) i).
      pose proof (Rle_0_sqr (fst a - fst b)) as H; unfold Rsqr in H. unfold rsub in *. lra.
Qed.

Lemma prune_R M n (q p x : vec R n) i bd :
  @sltb (RS M) (vnth 0 i x) (vnth 0 i p) = negb (@sltb (RS M) (vnth 0 i q - vnth 0 i p) 0) ->
  @sltb (RS M) (Rabs (vnth 0 i q - vnth 0 i p)) bd = false ->
  bd <= rdist x q.
Proof.
  cbn. intros H1 H2. apply Rltb_false in H2.
  eapply Rle_trans; [exact H2|].
  eapply Rle_trans; [|rewrite rdist_sym; apply (vnth_diff_le n i)].
  destruct (Rltb (vnth 0 i q - vnth 0 i p) 0) eqn:E; cbn in H1.
  - apply Rltb_true in E; apply Rltb_false in H1.
    rewrite !Rabs_left1 by lra. lra.
  - apply Rltb_false in E; apply Rltb_true in H1.
    rewrite !Rabs_pos_eq by lra. lra.
Qed.

Section RealNearest.
  Context (M : R) (L : Linal (RS M)) (n : nat) {P : Type} (SZ : nat) (HSZ : SZ <> 0%nat).
  Context (G : vec (RS M) n -> Prop) (HG : veq_on L G).

  Lemma nearest_R_min (hist : list (op (RS M) n P)) (q : vec (RS M) n) (b : @best (RS M) n P) :
    (forall p, In p (points hist) -> G p) ->
    (forall o' : op (RS M) n P, In o' hist -> forall p, In p (op_points o') -> G p) ->
    nearest SZ (run L SZ hist) q = Ok b ->
    b_dist b = rdist (b_point b) q /\
    (forall x, In x (points hist) -> rdist (b_point b) q <= rdist x q).
  Proof.
    intros Hg Ho Hb.
    pose proof (inv_run L n SZ G HG HSZ hist Hg Ho) as [H1 H2 H3 H4 H5].
    unfold nearest in Hb. destruct (root (run L SZ hist)) as [|p v l r] eqn:Er; [discriminate|].
    apply Ok_inj in Hb. set (b0 := @mkBest (RS M) n P [] p v (@kd_distance (RS M) n q p)) in Hb.
    assert (Hd : b_dist b = rdist (b_point b) q).
    { destruct (nearest_from n SZ (Node p v l r) [] q b0 0) as [E|[_ E]]; rewrite Hb in E.
      - rewrite E. unfold b0; cbn [b_dist b_point]. rewrite kd_distance_R. apply rdist_sym.
      - rewrite E. apply kd_distance_R. }
    split; [exact Hd|]. intros x Hx. rewrite <- Hd, <- Hb.
    destruct (nearest_min (S := RS M) n (P := P) SZ (fun _ => True) (fun _ => True) q) with
      (t := Node p v l r) (here := @nil bool) (b := b0) (d := 0%nat) as (_ & _ & Hm); auto.
    - unfold sle; cbn; intros a b1 c _ _ _ A B. apply Rltb_false in A, B. apply Rltb_false. lra.
    - unfold sle; cbn; intros a b1 _ _ A. apply Rltb_true in A. apply Rltb_false. lra.
    - unfold sle; cbn; intros a _. apply Rltb_false. lra.
    - intros d p' x' bd _ _ _ A B. unfold sle. rewrite kd_distance_R. apply Rltb_false.
      eapply prune_R; eauto.
    - assert (Hx' : In x (tpts n (Node p v l r))) by (apply H3; exact Hx).
      apply Hm in Hx'. unfold sle in Hx'. rewrite kd_distance_R in Hx'. now apply Rltb_false in Hx'.
  Qed.
End RealNearest.

(** ** statements used by the property file *)
Local Close Scope R_scope.

Lemma points_in_ops {S : Scalar} {n} {P} (hist : list (op S n P)) p :
  In p (points hist) -> exists o, In o hist /\ In p (op_points o).
Proof.
  unfold points. induction hist as [|o h IH]; cbn; [tauto|].
  destruct o as [p' v|p'| | |q]; cbn; try (intros H; destruct (IH H) as (o & H1 & H2); eauto).
  intros [<-|H].
  - exists (OpInsert p' v); cbn; auto.
  - destruct (IH H) as (o & H1 & H2); eauto.
Qed.

Lemma kdtree_first_wins_map :
  forall (S : Scalar) (L : Linal S) (n : nat) (P : Type) (SZ : nat) (G : vec S n -> Prop),
    SZ <> 0 -> veq_on L G ->
    forall (hist : list (op S n P)) (o : op S n P),
      (forall o', In o' (o :: hist) -> forall p, In p (op_points o') -> G p) ->
      kd_spec SZ hist o (snd (step L SZ (run L SZ hist) o)).
Proof.
  intros S L n P SZ G HSZ HG hist o H. apply (kd_spec_holds L n SZ G HG HSZ); [|exact H].
  intros p Hp. apply points_in_ops in Hp as (o' & H1 & H2). apply (H o'); [now right|assumption].
Qed.

Lemma distinct_count_unique {A} (l : list A) k1 k2 :
  distinct_count l k1 -> distinct_count l k2 -> k1 = k2.
Proof.
  intros (d1 & N1 & E1 & <-) (d2 & N2 & E2 & <-).
  apply Nat.le_antisymm; apply NoDup_incl_length; auto; intros x Hx; firstorder.
Qed.

Lemma kdtree_size_no_wrap :
  forall (S : Scalar) (L : Linal S) (n : nat) (P : Type) (SZ : nat) (G : vec S n -> Prop),
    veq_on L G ->
    forall (hist : list (op S n P)) (k : nat),
      (forall o', In o' hist -> forall p, In p (op_points o') -> G p) ->
      distinct_count (points hist) k -> k < SZ ->
      size (run L SZ hist) = k /\ (empty (run L SZ hist) = true <-> points hist = []).
Proof.
  intros S L n P SZ G HG hist k H Hk Hlt.
  assert (HSZ : SZ <> 0) by lia.
  assert (Hs : size (run L SZ hist) = k).
  { destruct (kdtree_first_wins_map S L n P SZ G HSZ HG hist OpSize) as (k' & Hk' & E).
    - intros o' [<-|Ho] p Hp; [destruct Hp|eauto].
    - cbn in E. injection E as E. rewrite (distinct_count_unique _ _ _ Hk' Hk) in E.
      rewrite E. now apply Nat.mod_small. }
  split; [exact Hs|].
  unfold empty. unfold size in Hs. rewrite Hs, Nat.eqb_eq.
  destruct Hk as (d & Hd & E & <-). split; intros H0.
  - destruct d as [|x d]; [|discriminate]. destruct (points hist) as [|y l]; [reflexivity|].
    exfalso. apply (E y). now left.
  - rewrite H0 in E. destruct d as [|x d]; [reflexivity|]. exfalso. apply (E x). now left.
Qed.

Lemma kdtree_size_wrap :
  let L := raw_linal ZS 0%Z in
  exists hist : list (op ZS 1 unit),
    distinct_count (points hist) 256 /\
    size (run L 256 hist) = 0 /\ empty (run L 256 hist) = true /\
    exists b, nearest 256 (run L 256 hist) (0%Z, tt) = Ok b.
Proof.
  intros L.
  exists (map (fun i => @OpInsert ZS 1 unit (Z.of_nat i, tt) tt) (seq 0 256)).
  split.
  - exists (map (fun i => (Z.of_nat i, tt)) (seq 0 256)). split; [|split].
    + apply FinFun.Injective_map_NoDup; [|apply seq_NoDup].
      intros a b E. injection E as E. now apply Nat2Z.inj.
    + intros x. generalize (seq 0 256). induction l as [|a l IH]; cbn; [tauto|].
      unfold points in IH. rewrite IH. reflexivity.
    + rewrite map_length, seq_length. reflexivity.
  - split; [vm_compute; reflexivity|]. split; [vm_compute; reflexivity|].
    eexists. vm_compute. reflexivity.
Qed.

Lemma kdtree_nearest_R :
  forall (M : R) (L : Linal (RS M)) (n : nat) (P : Type) (SZ : nat) (G : vec R n -> Prop),
    SZ <> 0 -> veq_on L (G : vec (RS M) n -> Prop) ->
    forall (hist : list (op (RS M) n P)) (q : vec R n),
      (forall o', In o' hist -> forall p, In p (op_points o') -> G p) ->
      (points hist = [] -> nearest SZ (run L SZ hist) q = Throw) /\
      (points hist <> [] ->
       exists b, nearest SZ (run L SZ hist) q = Ok b /\
         first_payload (inserted hist) (b_point b) (b_payload b) /\
         forall x, In x (points hist) -> (rdist (b_point b) q <= rdist x q)%R).
Proof.
  intros M L n P SZ G HSZ HG hist q H.
  assert (Hg : forall p, In p (points hist) -> G p).
  { intros p Hp. apply points_in_ops in Hp as (o & H1 & H2). eauto. }
  pose proof (inv_run L n SZ G HG HSZ hist Hg H) as [H1 H2 H3 H4 H5].
  destruct (root (run L SZ hist)) as [|p v l r] eqn:Er.
  - split; intros E.
    + unfold nearest. now rewrite Er.
    + exfalso. apply E. destruct (points hist) as [|x ?]; [reflexivity|].
      exfalso. apply (H3 x). now left.
  - split; intros E.
    + exfalso. assert (In p (points hist)) by (apply H3; rewrite tpts_node; now left).
      now rewrite E in *.
    + set (b := nearestHelper n SZ (Node p v l r) [] q
                  (@mkBest (RS M) n P [] p v (@kd_distance (RS M) n q p)) 0).
      assert (Hb : nearest SZ (run L SZ hist) q = Ok b) by (unfold nearest; now rewrite Er).
      exists b. split; [exact Hb|]. split.
      * apply H4. destruct (nearest_from n SZ (Node p v l r) [] q
                  (@mkBest (RS M) n P [] p v (@kd_distance (RS M) n q p)) 0) as [E'|[E' _]]; fold b in E'.
        -- rewrite E'. cbn; now left.
        -- exact E'.
      * apply (nearest_R_min M L n SZ HSZ G HG hist q b Hg H Hb).
Qed.

Lemma kdtree_nearest_stored :
  forall (M : R) (L : Linal (RS M)) (n : nat) (P : Type) (SZ : nat) (G : vec R n -> Prop),
    SZ <> 0 -> veq_on L (G : vec (RS M) n -> Prop) ->
    forall (hist : list (op (RS M) n P)) (q : vec R n),
      (forall o', In o' hist -> forall p, In p (op_points o') -> G p) ->
      In q (points hist) ->
      exists b, nearest SZ (run L SZ hist) q = Ok b /\ b_point b = q.
Proof.
  intros M L n P SZ G HSZ HG hist q H Hq.
  destruct (kdtree_nearest_R M L n P SZ G HSZ HG hist q H) as [_ Hn].
  destruct Hn as (b & Hb & _ & Hmin).
  { intros E; rewrite E in Hq; destruct Hq. }
  exists b; split; [exact Hb|].
  specialize (Hmin q Hq). rewrite rdist_self in Hmin.
  apply rdist_zero. apply Rle_antisym; [assumption|apply rdist_nonneg].
Qed.

Lemma kdtree_nearest_stored_b64 :
  forall f g h pi,
    let S := B64 f g h pi in
    let L := raw_linal S (b64_ofZ 0) in
    exists (hist : list (op S 1 unit)) (q : vec S 1) b,
      In q (points hist) /\ search L 256 (run L 256 hist) q = true /\
      nearest 256 (run L 256 hist) q = Ok b /\ veq L (b_point b) q = false.
Proof.
  intros f g h pi S L.
  set (q := (b64_pow 1 (-600), tt) : vec S 1).
  set (z := (b64_ofZ 0, tt) : vec S 1).
  set (hist := [OpInsert z tt; OpInsert q tt] : list (op S 1 unit)).
  exists hist, q.
  exists (mkBest [] z tt (@kd_distance S 1 q z)).
  split; [cbn; auto|].
  split; [vm_compute; reflexivity|].
  split; [|vm_compute; reflexivity].
  assert (E : run L 256 hist = mkKd (Node z tt Leaf (Node q tt Leaf Leaf)) 2).
  { unfold run, hist. cbn [fold_left step fst]. unfold insert, kd_empty. cbn [root insertHelper].
    replace (veq L z q) with false by (vm_compute; reflexivity).
    replace (sltb (vnth s0 (0 mod 1) q) (vnth s0 (0 mod 1) z)) with false by (vm_compute; reflexivity).
    reflexivity. }
  rewrite E. unfold nearest. cbn [root nearestHelper].
  set (b0 := mkBest [] z tt (kd_distance q z)).
  replace (sltb (kd_distance z q) (b_dist b0)) with false by (vm_compute; reflexivity).
  replace (sltb (ssub (vnth s0 (0 mod 1) q) (vnth s0 (0 mod 1) z)) s0) with false by (vm_compute; reflexivity).
  cbn [negb].
  replace (sltb (kd_distance q q) (b_dist b0)) with false by (vm_compute; reflexivity).
  cbv zeta.
  destruct (sltb (ssub (vnth s0 (next_depth 256 0 mod 1) q) (vnth s0 (next_depth 256 0 mod 1) q)) s0); cbn [negb];
  destruct (sltb (sabs (ssub (vnth s0 (next_depth 256 0 mod 1) q) (vnth s0 (next_depth 256 0 mod 1) q))) (b_dist b0));
  destruct (sltb (sabs (ssub (vnth s0 (0 mod 1) q) (vnth s0 (0 mod 1) z))) (b_dist b0)); reflexivity.
Qed.

Lemma kdtree_tolerant_eq :
  forall f g h pi,
    let S := B64 f g h pi in
    let L := tolvec_linal S (b64_pow 1 (-30)) in
    exists (hist : list (op S 2 unit)) (p q : vec S 2),
      In p (points hist) /\ veq L p q = true /\
      search L 256 (run L 256 hist) q = false /\
      snd (step L 256 (run L 256 hist) (OpInsert q tt)) = RBool true.
Proof.
  intros f g h pi S L.
  set (z := mk2 (b64_ofZ 0) (b64_ofZ 0) : vec S 2).
  set (p := mk2 (b64_pow (-1) (-31)) (b64_ofZ 1) : vec S 2).
  set (q := mk2 (b64_pow 1 (-31)) (b64_ofZ 1) : vec S 2).
  exists [OpInsert z tt; OpInsert p tt], p, q.
  split; [cbn; auto|].
  split; [vm_compute; reflexivity|].
  split; [vm_compute; reflexivity|].
  cbn [step]. destruct (insert L 256 _ q tt) as [t' b] eqn:E. cbn [snd].
  replace b with (snd (insert L 256 (run L 256 [OpInsert z tt; OpInsert p tt]) q tt)) by (now rewrite E).
  apply f_equal. vm_compute. reflexivity.
Qed.

Lemma vall2_tol_sep n (e : R) (p q : vec R n) :
  vall2 (fun a b => Rleb (Rabs (a - b)) e) p q = true ->
  forall i, i < n -> (Rabs (vnth 0%R i p - vnth 0%R i q) <= e)%R.
Proof.
  induction n as [|n IH]; intros H i Hi; [lia|].
  cbn in H. apply andb_true_iff in H as [H1 H2]. apply Rleb_true in H1.
  destruct i; cbn; [exact H1|]. apply IH; [exact H2|lia].
Qed.

Lemma kdtree_separated :
  forall (M e : R) (n : nat) (P : Type) (SZ : nat) (G : vec R n -> Prop),
    (0 <= e)%R -> SZ <> 0 ->
    (forall p q, G p -> G q -> p <> q -> exists i, i < n /\ (e < Rabs (vnth 0%R i p - vnth 0%R i q))%R) ->
    forall (hist : list (op (RS M) n P)) (o : op (RS M) n P),
      (forall o', In o' (o :: hist) -> forall p, In p (op_points o') -> G p) ->
      kd_spec SZ hist o (snd (step (tolvec_linal (RS M) e) SZ (run (tolvec_linal (RS M) e) SZ hist) o)).
Proof.
  intros M e n P SZ G He HSZ Hsep hist o H.
  apply (kdtree_first_wins_map (RS M) _ n P SZ G HSZ); [|exact H].
  intros p q Gp Gq. cbn. split; intros Hv.
  - destruct (vec_eqb (S := RS M) p q) eqn:E; [now apply vec_eqb_exact in E|exfalso].
    assert (Hne : p <> q).
    { intros <-. rewrite (proj2 (vec_eqb_exact M n p p) eq_refl) in E. discriminate. }
    destruct (Hsep p q Gp Gq Hne) as (i & Hi & Hlt).
    pose proof (vall2_tol_sep n e p q Hv i Hi). lra.
  - subst. apply vall2_refl. intros a. apply Rleb_true.
    replace (a - a)%R with 0%R by ring. rewrite Rabs_R0. exact He.
Qed.

Lemma kdtree_move_preserves :
  forall (S : Scalar) (L : Linal S) (n : nat) (P : Type) (SZ : nat) (t : kdtree S n P) (o : op S n P),
    snd (step L SZ (fst (move_construct t)) o) = snd (step L SZ t o).
Proof. intros; destruct t; reflexivity. Qed.

Lemma kdtree_moved_from :
  forall (S : Scalar) (L : Linal S) (n : nat) (P : Type) (SZ : nat) (G : vec S n -> Prop),
    veq_on L G ->
    forall (hist : list (op S n P)) (k : nat) (q : vec S n),
      (forall o', In o' hist -> forall p, In p (op_points o') -> G p) ->
      distinct_count (points hist) k -> 0 < k < SZ ->
      let moved := snd (move_construct (run L SZ hist)) in
      empty moved = false /\ size moved = k /\ nearest SZ moved q = Throw /\ search L SZ moved q = false.
Proof.
  intros S L n P SZ G HG hist k q H Hk Hlt moved.
  destruct (kdtree_size_no_wrap S L n P SZ G HG hist k H Hk ltac:(lia)) as [Hs _].
  unfold size in Hs. unfold moved, move_construct; cbn. unfold empty, size; cbn.
  rewrite Hs. repeat split. apply Nat.eqb_neq. lia.
Qed.
