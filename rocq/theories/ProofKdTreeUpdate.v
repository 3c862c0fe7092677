(** * Proofs about KdTree: writing through the payload reference *)

From Coq Require Import List Arith Bool Lia.
From Verif Require Import Scalar Linal Result ModelKdTree SpecKdTree ProofKdTree.
Import ListNotations.

Section Update.
  Context {S : Scalar} (L : Linal S) (n : nat) {P : Type} (SZ : nat) (f : P -> P).
  Notation tree := (@tree S n P).

  Fixpoint lookup (t : tree) (k : list bool) : option (vec S n * P) :=
    match t with
    | Leaf => None
    | Node p v l r =>
        match k with
        | [] => Some (p, v)
        | false :: k => lookup l k
        | true :: k => lookup r k
        end
    end.

  (** the update, by absolute position *)
  Fixpoint updx (tgt here : list bool) (t : tree) : tree :=
    match t with
    | Leaf => Leaf
    | Node p v l r =>
        Node p (if list_eq_dec bool_dec tgt here then f v else v)
          (updx tgt (here ++ [false]) l) (updx tgt (here ++ [true]) r)
    end.

  Lemma updx_out tgt t : forall here, (forall k, tgt <> here ++ k) -> updx tgt here t = t.
  Proof.
    induction t as [|p v l IHl r IHr]; intros here H; [reflexivity|]. cbn [updx].
    destruct (list_eq_dec bool_dec tgt here) as [E|_].
    - exfalso. apply (H []). now rewrite app_nil_r.
    - rewrite IHl, IHr; [reflexivity| |]; intros k; rewrite <- app_assoc; apply H.
  Qed.

  Lemma updx_update tgt t : forall here k, tgt = here ++ k -> updx tgt here t = update_payload f k t.
  Proof.
    induction t as [|p v l IHl r IHr]; intros here k ->; [reflexivity|]. cbn [updx update_payload].
    destruct (list_eq_dec bool_dec (here ++ k) here) as [E|E].
    - rewrite <- (app_nil_r here) in E at 2. apply app_inv_head in E. subst k.
      rewrite !updx_out; [reflexivity| |]; intros k; rewrite <- app_assoc; intros E;
        apply app_inv_head in E; discriminate.
    - destruct k as [|[] k]; [now rewrite app_nil_r in E| |].
      + rewrite updx_out, (IHr (here ++ [true]) k); [reflexivity|now rewrite <- app_assoc|].
        intros k'. rewrite <- app_assoc. intros E'. apply app_inv_head in E'. discriminate.
      + rewrite (IHl (here ++ [false]) k), updx_out; [reflexivity| |now rewrite <- app_assoc].
        intros k'. rewrite <- app_assoc. intros E'. apply app_inv_head in E'. discriminate.
  Qed.

  Definition upd_best (tgt : list bool) (b : @best S n P) : @best S n P :=
    mkBest (b_path b) (b_point b)
      (if list_eq_dec bool_dec tgt (b_path b) then f (b_payload b) else b_payload b) (b_dist b).

  Lemma nearestHelper_updx tgt q t : forall here b d,
    nearestHelper n SZ (updx tgt here t) here q (upd_best tgt b) d = upd_best tgt (nearestHelper n SZ t here q b d).
  Proof.
    induction t as [|p v l IHl r IHr]; intros here b d; [reflexivity|].
    cbn [nearestHelper updx]. cbn [upd_best b_dist].
    set (b1 := if sltb (kd_distance p q) (b_dist b) then mkBest here p v (kd_distance p q) else b).
    replace (if sltb (kd_distance p q) (b_dist b)
             then mkBest here p (if list_eq_dec bool_dec tgt here then f v else v) (kd_distance p q)
             else upd_best tgt b) with (upd_best tgt b1).
    2:{ unfold b1. destruct (sltb _ _); reflexivity. }
    clearbody b1.
    set (c := sltb (ssub (vnth s0 (d mod n) q) (vnth s0 (d mod n) p)) s0).
    assert (Hgo : forall (right : bool) b0,
      (if right then nearestHelper n SZ (updx tgt (here ++ [true]) r) (here ++ [true]) q (upd_best tgt b0) (next_depth SZ d)
       else nearestHelper n SZ (updx tgt (here ++ [false]) l) (here ++ [false]) q (upd_best tgt b0) (next_depth SZ d)) =
      upd_best tgt (if right then nearestHelper n SZ r (here ++ [true]) q b0 (next_depth SZ d)
                    else nearestHelper n SZ l (here ++ [false]) q b0 (next_depth SZ d))).
    { intros [] b0; [apply IHr|apply IHl]. }
    rewrite (Hgo (negb c) b1). set (b2 := if negb c then _ else _). clearbody b2.
    cbn [upd_best b_dist]. destruct (sltb (sabs _) (b_dist b2)); [apply Hgo|reflexivity].
  Qed.

  (** writing at [tgt] changes the payload read at [tgt] and nothing else *)
  Lemma nearest_update tgt (t : kdtree S n P) q :
    nearest SZ (mkKd (update_payload f tgt (root t)) (msize t)) q =
    match nearest SZ t q with Ok b => Ok (upd_best tgt b) | e => e end.
  Proof.
    rewrite <- (updx_update tgt (root t) [] tgt eq_refl).
    unfold nearest. cbn [root]. destruct (root t) as [|p v l r] eqn:E; [reflexivity|].
    cbn [updx]. rewrite <- nearestHelper_updx. reflexivity.
  Qed.

  Lemma search_update (t : tree) : forall k p d,
    searchHelper L n SZ (update_payload f k t) p d = searchHelper L n SZ t p d.
  Proof.
    induction t as [|q w l IHl r IHr]; intros k p d; [reflexivity|].
    destruct k as [|[] k]; cbn; rewrite ?IHl, ?IHr; reflexivity.
  Qed.

  Lemma insert_update (t : tree) : forall k p v d,
    snd (insertHelper L n SZ (update_payload f k t) p v d) = snd (insertHelper L n SZ t p v d).
  Proof.
    induction t as [|q w l IHl r IHr]; intros k p v d; [reflexivity|].
    destruct k as [|[] k]; cbn; (destruct (veq L q p); [reflexivity|]);
      destruct (sltb _ _);
      repeat match goal with
      | |- context [insertHelper L n SZ (update_payload f ?k ?t) ?p ?v ?d] =>
          pose proof (IHl k p v d); pose proof (IHr k p v d);
          destruct (insertHelper L n SZ (update_payload f k t) p v d)
      | |- context [insertHelper L n SZ ?t ?p ?v ?d] => destruct (insertHelper L n SZ t p v d)
      end; cbn in *; congruence.
  Qed.

  (** paths returned by nearest lead to the returned node *)
  Lemma nearest_lookup t : forall here q b d (T : tree),
    (forall k, lookup T (here ++ k) = lookup t k) ->
    lookup T (b_path b) = Some (b_point b, b_payload b) ->
    let b' := nearestHelper n SZ t here q b d in
    lookup T (b_path b') = Some (b_point b', b_payload b').
  Proof.
    induction t as [|p v l IHl r IHr]; intros here q b d T HT Hb; cbn [nearestHelper]; [exact Hb|].
    set (b1 := if sltb (kd_distance p q) (b_dist b) then mkBest here p v (kd_distance p q) else b).
    assert (H1 : lookup T (b_path b1) = Some (b_point b1, b_payload b1)).
    { unfold b1. destruct (sltb _ _); [|exact Hb]. cbn. specialize (HT []). rewrite app_nil_r in HT. exact HT. }
    clearbody b1.
    set (c := sltb (ssub (vnth s0 (d mod n) q) (vnth s0 (d mod n) p)) s0).
    assert (Hgo : forall (right : bool) b0, lookup T (b_path b0) = Some (b_point b0, b_payload b0) ->
      let b' := if right then nearestHelper n SZ r (here ++ [true]) q b0 (next_depth SZ d)
                else nearestHelper n SZ l (here ++ [false]) q b0 (next_depth SZ d) in
      lookup T (b_path b') = Some (b_point b', b_payload b')).
    { intros [] b0 H0; [apply IHr|apply IHl]; auto; intros k; rewrite <- app_assoc; apply HT. }
    pose proof (Hgo (negb c) b1 H1) as H2. cbn zeta in *.
    set (b2 := if negb c then _ else _) in *. clearbody b2.
    destruct (sltb (sabs _) (b_dist b2)); [apply (Hgo c b2 H2)|exact H2].
  Qed.

  Lemma lookup_in t : forall k p v, lookup t k = Some (p, v) -> In p (tpts n t).
  Proof.
    induction t as [|q w l IHl r IHr]; intros k p v H; [discriminate|].
    rewrite tpts_node. destruct k as [|[] k]; cbn in H.
    - injection H as -> _. now left.
    - right. apply in_or_app. right. eauto.
    - right. apply in_or_app. left. eauto.
  Qed.

  Lemma NoDup_app_inv {A} (l1 l2 : list A) : NoDup (l1 ++ l2) ->
    NoDup l1 /\ NoDup l2 /\ forall x, In x l1 -> In x l2 -> False.
  Proof.
    induction l1 as [|y ys IH]; cbn; intros H.
    - split; [constructor|]. split; [exact H|tauto].
    - apply NoDup_cons_iff in H as [H1 H2]. destruct (IH H2) as (Ha & Hb & Hc).
      split; [|split; [exact Hb|]].
      + constructor; [|exact Ha]. intros H. apply H1, in_or_app. now left.
      + intros x [->|Hx] Hy; [apply H1, in_or_app; now right|eauto].
  Qed.

  Lemma lookup_path_unique t : NoDup (tpts n t) -> forall k k' p v v',
    lookup t k = Some (p, v) -> lookup t k' = Some (p, v') -> k = k'.
  Proof.
    induction t as [|q w l IHl r IHr]; intros Hnd k k' p v v' H H'; [discriminate|].
    rewrite tpts_node in Hnd. apply NoDup_cons_iff in Hnd as [Hq Hnd].
    destruct (NoDup_app_inv _ _ Hnd) as (Hl & Hr & Hdis).
    assert (Hql : forall k v, lookup l k = Some (q, v) -> False)
      by (intros ? ? E; apply lookup_in in E; apply Hq, in_or_app; now left).
    assert (Hqr : forall k v, lookup r k = Some (q, v) -> False)
      by (intros ? ? E; apply lookup_in in E; apply Hq, in_or_app; now right).
    assert (Hlr : forall k k' v v', lookup l k = Some (p, v) -> lookup r k' = Some (p, v') -> False)
      by (intros ? ? ? ? E E'; apply lookup_in in E, E'; eauto).
    destruct k as [|[] k], k' as [|[] k']; cbn in H, H'; try reflexivity;
      repeat match goal with
      | H : Some (_, _) = Some (_, _) |- _ => injection H as -> ->
      end; try (exfalso; eauto; fail).
    - f_equal. eapply IHr; eauto.
    - f_equal. eapply IHl; eauto.
  Qed.
End Update.

Lemma kdtree_payload_write :
  forall (S : Scalar) (L : Linal S) (n : nat) (P : Type) (SZ : nat) (G : vec S n -> Prop),
    SZ <> 0 -> veq_on L G ->
    forall (hist : list (op S n P)) (q : vec S n) (b : @best S n P) (f : P -> P),
      (forall o', In o' hist -> forall p, In p (op_points o') -> G p) ->
      nearest SZ (run L SZ hist) q = Ok b ->
      let t := run L SZ hist in
      let t' := mkKd (update_payload f (b_path b) (root t)) (msize t) in
      (forall q', exists b0 b1, nearest SZ t q' = Ok b0 /\ nearest SZ t' q' = Ok b1 /\
         b_point b1 = b_point b0 /\
         (b_point b0 = b_point b -> b_payload b1 = f (b_payload b)) /\
         (b_point b0 <> b_point b -> b_payload b1 = b_payload b0)) /\
      (forall p, search L SZ t' p = search L SZ t p) /\
      (forall p v, snd (insert L SZ t' p v) = snd (insert L SZ t p v)) /\
      size t' = size t /\ empty t' = empty t.
Proof.
  intros S L n P SZ G HSZ HG hist q b f Hops Hb t t'.
  assert (HI : inv n SZ hist t).
  { apply (inv_run L n SZ G HG HSZ); [|exact Hops].
    intros p Hp. apply points_in_ops in Hp as (o' & H1 & H2). eauto. }
  assert (Hlook : forall q' b', nearest SZ t q' = Ok b' -> lookup n (root t) (b_path b') = Some (b_point b', b_payload b')).
  { intros q' b'. unfold nearest. destruct (root t) as [|p v l r]; [discriminate|].
    intros E. apply Ok_inj in E. subst b'.
    apply (nearest_lookup n SZ (Node p v l r) [] q' _ 0 (Node p v l r)); reflexivity. }
  split; [|split; [|split; [|split; reflexivity]]].
  - intros q'. destruct (nearest SZ t q') as [b0| | | |] eqn:E;
      try (exfalso; revert E Hb; unfold t, nearest; destruct (root (run L SZ hist)); discriminate).
    exists b0, (upd_best n f (b_path b) b0). split; [reflexivity|]. split.
    + unfold t'. rewrite nearest_update, E. reflexivity.
    + split; [reflexivity|]. unfold upd_best. cbn [b_payload].
      pose proof (Hlook _ _ Hb) as H1. pose proof (Hlook _ _ E) as H2.
      destruct (list_eq_dec bool_dec (b_path b) (b_path b0)) as [Ep|Ep]; split; intros Hp.
      * rewrite Ep, H2 in H1. injection H1 as _ ->. reflexivity.
      * exfalso. rewrite Ep, H2 in H1. injection H1 as H1 _. contradiction.
      * exfalso. apply Ep. rewrite Hp in H2. eapply (lookup_path_unique n (root t)); eauto. apply HI.
      * reflexivity.
  - intros p. apply search_update.
  - intros p v. unfold insert, t'. cbn [root msize].
    pose proof (insert_update L n SZ f (root t) (b_path b) p v 0) as H.
    destruct (insertHelper L n SZ (update_payload f (b_path b) (root t)) p v 0), (insertHelper L n SZ (root t) p v 0).
    cbn in *. congruence.
Qed.
