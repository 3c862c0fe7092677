(** * Connectedness and vertex stars of the tessellations *)

From Coq Require Import List Arith Bool Lia.
From Verif Require Import SpecMesh SpecTess ProofTessComb.
Import ListNotations.

Local Arguments Nat.ltb _ _ : simpl never.
Local Arguments Nat.leb _ _ : simpl never.
Local Arguments Nat.eqb _ _ : simpl never.
Local Arguments Nat.modulo _ _ : simpl never.
Local Arguments Nat.mul _ _ : simpl never.

Section Chain.
  Context {A : Type} (E : A -> A -> Prop).

  Lemma chain_one u v : E u v -> chain E u v.
  Proof. intros H. econstructor; [exact H|constructor]. Qed.
  Lemma chain_trans u v w : chain E u v -> chain E v w -> chain E u w.
  Proof. intros H. revert w. induction H as [|u v w' H1 H2 IH]; intros w K; [exact K|]. econstructor; eauto. Qed.
  Lemma chain_sym u v : (forall x y, E x y -> E y x) -> chain E u v -> chain E v u.
  Proof.
    intros Hs H. induction H as [|u v w H1 H2 IH]; [constructor|].
    eapply chain_trans; [exact IH|]. apply chain_one. auto.
  Qed.
  Lemma chain_hub (ok : A -> Prop) h : (forall x y, E x y -> E y x) -> (forall v, ok v -> chain E v h) ->
    forall u v, ok u -> ok v -> chain E u v.
  Proof. intros Hs H u v Hu Hv. eapply chain_trans; [apply H, Hu|]. apply chain_sym; [exact Hs|]. apply H, Hv. Qed.
  Lemma chain_loop (ok : A -> Prop) h : (forall v, ok v -> chain E v h) -> (forall v, ok v -> chain E h v) ->
    forall u v, ok u -> ok v -> chain E u v.
  Proof. intros H1 H2 u v Hu Hv. eapply chain_trans; [apply H1, Hu|]. apply H2, Hv. Qed.
  (** a cyclic family *)
  Lemma chain_cycle (f : nat -> A) n : (forall j, j < n -> E (f (prv n j)) (f j)) ->
    forall i j, i < n -> j < n -> chain E (f i) (f j).
  Proof.
    intros H.
    assert (Up : forall k i, i + k < n -> chain E (f i) (f (i + k))).
    { induction k as [|k IH]; intros i Hi; [rewrite Nat.add_0_r; constructor|].
      eapply chain_trans; [apply IH; lia|]. apply chain_one. specialize (H (i + S k) Hi).
      replace (prv n (i + S k)) with (i + k) in H by (cyc; lia). exact H. }
    intros i j Hi Hj. replace (n - 1) with (i + (n - 1 - i)) in * by lia.
    eapply chain_trans; [apply (Up (n - 1 - i)); lia|].
    eapply chain_trans; [|apply (Up j 0); lia]. apply chain_one. specialize (H 0 ltac:(lia)).
    replace (prv n 0) with (i + (n - 1 - i)) in H by (cyc; lia). exact H.
  Qed.
  Lemma chain_cycle' (f : nat -> A) n : (forall j, j < n -> E (f j) (f (prv n j))) ->
    forall i j, i < n -> j < n -> chain E (f i) (f j).
  Proof.
    intros H i j Hi Hj.
    assert (Dn : forall k i, i + k < n -> chain E (f (i + k)) (f i)).
    { induction k as [|k IH]; intros x Hx; [rewrite Nat.add_0_r; constructor|].
      eapply chain_trans; [|apply IH; lia]. apply chain_one. specialize (H (x + S k) Hx).
      replace (prv n (x + S k)) with (x + k) in H by (cyc; lia). exact H. }
    eapply chain_trans; [apply (Dn i 0); lia|].
    eapply chain_trans; [|replace (n - 1) with (j + (n - 1 - j)) by lia; apply (Dn (n - 1 - j) j); lia].
    apply chain_one. specialize (H 0 ltac:(lia)). replace (prv n 0) with (j + (n - 1 - j)) in H by (cyc; lia). exact H.
  Qed.
End Chain.

(** around [u], the edge to [v] is followed by the edge to [w] *)
Definition turns {V} (tris : list (V * V * V)) (u v w : V) : Prop :=
  exists t, In t tris /\ In (v, u) (edges3 t) /\ In (u, w) (edges3 t).

(** all edges at [u] follow one another *)
Definition one_star {V} (tris : list (V * V * V)) (u : V) : Prop :=
  forall v w, In (u, v) (flat_map edges3 tris) -> In (u, w) (flat_map edges3 tris) -> chain (turns tris u) v w.

Definition edge_rel {V} (tris : list (V * V * V)) (u v : V) : Prop := In (u, v) (flat_map edges3 tris).

Lemma edge_sym {V} (tris : list (V * V * V)) : closed_oriented (flat_map edges3 tris) ->
  forall x y, edge_rel tris x y -> edge_rel tris y x.
Proof. intros H x y K. apply (proj2 H x y K). Qed.

Section Cyc.
  Context (a : nat) (Ha : 3 <= a).
  Lemma prv_lt j : j < a -> prv a j < a.
  Proof. intros H. cyc; lia. Qed.
  Lemma nxt_lt j : j < a -> nxt a j < a.
  Proof. intros H. cyc; lia. Qed.
  Lemma prv_nxt j : j < a -> prv a (nxt a j) = j.
  Proof. intros H. cyc; lia. Qed.
  Lemma nxt_prv j : j < a -> nxt a (prv a j) = j.
  Proof. intros H. cyc; lia. Qed.
End Cyc.

Section Sphere.
  Context (p a : nat) (Hp : 2 <= p) (Ha : 3 <= a).
  Let tris := map (ctri p a) (ctags p a).

  Lemma sphere_edge t u v : tag_ok p a t -> In (u, v) (edges3 (stri p a t)) -> edge_rel tris u v.
  Proof.
    intros Ht H. apply in_flat_map. exists (ctri p a t). split; [apply in_map, ctags_ok; assumption|].
    apply ctri_edges, H.
  Qed.
  Lemma sphere_edge_inv u v : edge_rel tris u v -> exists t, tag_ok p a t /\ In (u, v) (edges3 (stri p a t)).
  Proof.
    intros H. apply in_flat_map in H as (t0 & Ht & H). apply in_map_iff in Ht as (t & <- & Ht).
    exists t. split; [apply ctags_ok in Ht; assumption|]. apply ctri_edges, H.
  Qed.
  Lemma sphere_turn t u v w : tag_ok p a t -> In (v, u) (edges3 (stri p a t)) -> In (u, w) (edges3 (stri p a t)) ->
    turns tris u v w.
  Proof.
    intros Ht H1 H2. exists (ctri p a t). split; [apply in_map, ctags_ok; assumption|].
    split; apply ctri_edges; assumption.
  Qed.

  Lemma sphere_sym x y : edge_rel tris x y -> edge_rel tris y x.
  Proof. apply edge_sym. exact (ctri_closed p a Hp Ha). Qed.

  Lemma sphere_connected u v : sv_ok p a u -> sv_ok p a v -> chain (edge_rel tris) u v.
  Proof.
    apply (chain_hub _ _ Top); [exact sphere_sym|].
    assert (R : forall i j, i < p - 1 -> j < a -> chain (edge_rel tris) (Ring i j) Top).
    { induction i as [|i IH]; intros j Hi Hj.
      - apply chain_one, sphere_sym. apply (sphere_edge (TT j)); cbn; auto.
      - eapply chain_trans; [|apply (IH j); lia]. apply chain_one, sphere_sym.
        apply (sphere_edge (BB (S i) j)); cbn; [lia|]. rewrite Nat.sub_0_r. auto. }
    intros [| |i j] H; [constructor| |apply R; apply H].
    eapply chain_trans; [|apply (R (p - 2) 0); lia]. apply chain_one, sphere_sym.
    apply (sphere_edge (TB 0)); cbn; [lia|auto].
  Qed.

  Lemma sphere_star u : sv_ok p a u -> one_star tris u.
  Proof.
    intros Hu v w Hv Hw. apply sphere_edge_inv in Hv as (t & Ht & Hv). apply sphere_edge_inv in Hw as (t' & Ht' & Hw).
    destruct u as [| |i j].
    - assert (K : forall t v, tag_ok p a t -> In (Top, v) (edges3 (stri p a t)) -> exists k, k < a /\ v = Ring 0 k).
      { clear. intros [j|j|i j|i j] v Ht H; cbn in H; destruct H as [H|[H|[H|[]]]]; try discriminate H.
        injection H as <-. exists j; auto. }
      destruct (K t v Ht Hv) as (k & Hk & ->). destruct (K t' w Ht' Hw) as (l & Hl & ->).
      apply (chain_cycle _ (Ring 0) a); [|assumption|assumption]. intros x Hx.
      apply (sphere_turn (TT x)); cbn; auto.
    - assert (K : forall t v, tag_ok p a t -> In (Bot, v) (edges3 (stri p a t)) -> exists k, k < a /\ v = Ring (p - 2) k).
      { clear - Ha. intros [j|j|i j|i j] v Ht H; cbn in H; destruct H as [H|[H|[H|[]]]]; try discriminate H.
        injection H as <-. exists (prv a j); split; [apply prv_lt; [exact Ha|exact Ht]|reflexivity]. }
      destruct (K t v Ht Hv) as (k & Hk & ->). destruct (K t' w Ht' Hw) as (l & Hl & ->).
      apply (chain_cycle' _ (Ring (p - 2)) a); [|assumption|assumption]. intros x Hx.
      apply (sphere_turn (TB x)); cbn; auto.
    - destruct Hu as [Hi Hj]. pose proof (prv_lt a Ha j Hj) as Hpl. pose proof (nxt_lt a Ha j Hj) as Hnl. pose proof (prv_nxt a Ha j Hj) as Hpn.
      set (f := turns tris (Ring i j)).
      (* the lower half turn *)
      assert (Lo : exists x y, chain f (Ring i (prv a j)) x /\ chain f x y /\ chain f y (Ring i (nxt a j)) /\
                (i < p - 2 -> x = Ring (i + 1) (prv a j) /\ y = Ring (i + 1) j) /\ (i = p - 2 -> x = Bot /\ y = Bot)).
      { destruct (Nat.eq_dec i (p - 2)) as [E|NE].
        - exists Bot, Bot. split; [|split; [constructor|split; [|split; [lia|auto]]]].
          + apply chain_one. apply (sphere_turn (TB j)); [exact Hj| |]; cbn; rewrite <- E; auto.
          + apply chain_one. apply (sphere_turn (TB (nxt a j))); [exact Hnl| |]; cbn; rewrite <- E, Hpn; auto.
        - exists (Ring (i + 1) (prv a j)), (Ring (i + 1) j). split; [|split; [|split; [|split; [auto|lia]]]].
          + apply chain_one. apply (sphere_turn (BA (i + 1) j)); cbn; try lia; rewrite Nat.add_sub; auto.
          + apply chain_one. apply (sphere_turn (BB (i + 1) j)); cbn; try lia; rewrite Nat.add_sub; auto.
          + apply chain_one. apply (sphere_turn (BA (i + 1) (nxt a j))); cbn; try lia; rewrite Nat.add_sub, Hpn; auto. }
      assert (Up : exists x y, chain f (Ring i (nxt a j)) x /\ chain f x y /\ chain f y (Ring i (prv a j)) /\
                (0 < i -> x = Ring (i - 1) (nxt a j) /\ y = Ring (i - 1) j) /\ (i = 0 -> x = Top /\ y = Top)).
      { destruct (Nat.eq_dec i 0) as [E|NE].
        - exists Top, Top. split; [|split; [constructor|split; [|split; [lia|auto]]]].
          + apply chain_one. apply (sphere_turn (TT (nxt a j))); [exact Hnl| |]; cbn; rewrite E, Hpn; auto.
          + apply chain_one. apply (sphere_turn (TT j)); [exact Hj| |]; cbn; rewrite E; auto.
        - exists (Ring (i - 1) (nxt a j)), (Ring (i - 1) j). split; [|split; [|split; [|split; [auto|lia]]]].
          + apply chain_one. apply (sphere_turn (BB i (nxt a j))); cbn; try lia; rewrite Hpn; auto.
          + apply chain_one. apply (sphere_turn (BA i (nxt a j))); cbn; try lia; rewrite Hpn; auto.
          + apply chain_one. apply (sphere_turn (BB i j)); cbn; try lia; auto. }
      destruct Lo as (x1 & y1 & L1 & L2 & L3 & L4 & L5), Up as (x2 & y2 & U1 & U2 & U3 & U4 & U5).
      assert (K : forall t v, tag_ok p a t -> In (Ring i j, v) (edges3 (stri p a t)) ->
                v = Ring i (prv a j) \/ v = x1 \/ v = y1 \/ v = Ring i (nxt a j) \/ v = x2 \/ v = y2).
      { clear t v w t' Ht Hv Ht' Hw.
        assert (Hnn : forall k, k < a -> prv a k = j -> k = nxt a j).
        { clear - Ha Hj. intros k Hk E. cyc; lia. }
        intros [k|k|i' k|i' k] v Ht H; cbn [stri edges3 In tag_ok] in H, Ht; destruct H as [H|[H|[H|[]]]]; try discriminate H;
          injection H; clear H; intros.
        - subst. tauto.
        - subst. destruct (U5 eq_refl). subst. tauto.
        - subst. destruct (L5 eq_refl). subst. tauto.
        - subst. rewrite <- (Hnn k Ht eq_refl). tauto.
        - subst. destruct L4 as [E1 E2]; [lia|]. replace (i' - 1 + 1) with i' in * by lia. subst. tauto.
        - subst. destruct U4 as [E1 E2]; [lia|]. subst. tauto.
        - subst. rewrite <- (Hnn k (proj2 Ht) eq_refl). tauto.
        - subst. destruct U4 as [E1 E2]; [lia|]. rewrite <- (Hnn k (proj2 Ht) eq_refl) in E1. subst. tauto.
        - subst. destruct L4 as [E1 E2]; [lia|]. replace (i' - 1 + 1) with i' in * by lia. subst. tauto.
        - subst. tauto. }
      pose proof (chain_trans f) as T.
      apply (chain_loop f (fun v => v = Ring i (prv a j) \/ v = x1 \/ v = y1 \/ v = Ring i (nxt a j) \/ v = x2 \/ v = y2) (Ring i (nxt a j)));
        [| |apply (K t v Ht Hv)|apply (K t' w Ht' Hw)].
      + intros z [->|[->|[->|[->|[->| ->]]]]]; eauto using chain_refl.
      + intros z [->|[->|[->|[->|[->| ->]]]]]; eauto using chain_refl.
  Qed.
End Sphere.

Section Cone.
  Context (a : nat) (Ha : 3 <= a).
  Let tris := map (ktri a) (ktags a).

  Lemma cone_edge t u v : ktag_ok a t -> In (u, v) (edges3 (ktri a t)) -> edge_rel tris u v.
  Proof. intros Ht H. apply in_flat_map. exists (ktri a t). split; [apply in_map, ktags_ok; assumption|exact H]. Qed.
  Lemma cone_edge_inv u v : edge_rel tris u v -> exists t, ktag_ok a t /\ In (u, v) (edges3 (ktri a t)).
  Proof.
    intros H. apply in_flat_map in H as (t0 & Ht & H). apply in_map_iff in Ht as (t & <- & Ht).
    exists t. split; [apply ktags_ok in Ht; assumption|exact H].
  Qed.
  Lemma cone_turn t u v w : ktag_ok a t -> In (v, u) (edges3 (ktri a t)) -> In (u, w) (edges3 (ktri a t)) -> turns tris u v w.
  Proof. intros Ht H1 H2. exists (ktri a t). split; [apply in_map, ktags_ok; assumption|auto]. Qed.

  Lemma cone_connected u v : kv_ok a u -> kv_ok a v -> chain (edge_rel tris) u v.
  Proof.
    assert (Hs := edge_sym tris (ktri_closed a Ha)).
    apply (chain_hub _ _ KC); [exact Hs|].
    assert (R : forall j, j < a -> chain (edge_rel tris) (KR j) KC).
    { intros j Hj. apply chain_one, Hs. apply (cone_edge (KB j)); cbn; auto. }
    intros [| |j] H; [constructor| |apply R, H].
    eapply chain_trans; [|apply (R 0); lia]. apply chain_one, Hs. apply (cone_edge (KM 0)); cbn; [lia|auto].
  Qed.

  Lemma cone_star u : kv_ok a u -> one_star tris u.
  Proof.
    intros Hu v w Hv Hw. apply cone_edge_inv in Hv as (t & Ht & Hv). apply cone_edge_inv in Hw as (t' & Ht' & Hw).
    destruct u as [| |j].
    - assert (K : forall t v, ktag_ok a t -> In (KC, v) (edges3 (ktri a t)) -> exists k, k < a /\ v = KR k).
      { clear. intros [j|j] v Ht H; cbn in H; destruct H as [H|[H|[H|[]]]]; try discriminate H. injection H as <-. exists j; auto. }
      destruct (K t v Ht Hv) as (k & Hk & ->). destruct (K t' w Ht' Hw) as (l & Hl & ->).
      apply (chain_cycle' _ KR a); [|assumption|assumption]. intros x Hx.
      apply (cone_turn (KB (prv a x))); cbn; rewrite ?nxt_prv by assumption; auto. apply prv_lt; assumption.
    - assert (K : forall t v, ktag_ok a t -> In (KP, v) (edges3 (ktri a t)) -> exists k, k < a /\ v = KR k).
      { clear - Ha. intros [j|j] v Ht H; cbn in H; destruct H as [H|[H|[H|[]]]]; try discriminate H. injection H as <-.
        exists (nxt a j); split; [apply nxt_lt; assumption|reflexivity]. }
      destruct (K t v Ht Hv) as (k & Hk & ->). destruct (K t' w Ht' Hw) as (l & Hl & ->).
      apply (chain_cycle _ KR a); [|assumption|assumption]. intros x Hx.
      apply (cone_turn (KM (prv a x))); cbn; rewrite ?nxt_prv by assumption; auto. apply prv_lt; assumption.
    - cbn in Hu. pose proof (prv_lt a Ha j Hu) as Hpl. pose proof (nxt_lt a Ha j Hu) as Hnl. pose proof (nxt_prv a Ha j Hu) as Hnp.
      set (f := turns tris (KR j)).
      assert (C1 : chain f KC (KR (nxt a j))) by (apply chain_one, (cone_turn (KB j)); cbn; auto).
      assert (C2 : chain f (KR (nxt a j)) KP) by (apply chain_one, (cone_turn (KM j)); cbn; auto).
      assert (C3 : chain f KP (KR (prv a j))) by (apply chain_one, (cone_turn (KM (prv a j))); cbn; rewrite ?Hnp; auto).
      assert (C4 : chain f (KR (prv a j)) KC) by (apply chain_one, (cone_turn (KB (prv a j))); cbn; rewrite ?Hnp; auto).
      assert (K : forall t v, ktag_ok a t -> In (KR j, v) (edges3 (ktri a t)) ->
                v = KC \/ v = KR (nxt a j) \/ v = KP \/ v = KR (prv a j)).
      { assert (Hpp : forall k, k < a -> nxt a k = j -> k = prv a j) by (clear - Ha Hu; intros k Hk E; cyc; lia).
        clear t v w t' Ht Hv Ht' Hw. intros [k|k] v Ht H; cbn [ktri edges3 In ktag_ok] in H, Ht; destruct H as [H|[H|[H|[]]]]; try discriminate H;
          injection H; clear H; intros; subst; try tauto.
        rewrite <- (Hpp k Ht eq_refl). tauto. }
      pose proof (chain_trans f) as T.
      apply (chain_loop f (fun v => v = KC \/ v = KR (nxt a j) \/ v = KP \/ v = KR (prv a j)) KC);
        [| |apply (K t v Ht Hv)|apply (K t' w Ht' Hw)].
      + intros z [->|[->|[->| ->]]]; eauto using chain_refl.
      + intros z [->|[->|[->| ->]]]; eauto using chain_refl.
  Qed.
End Cone.

Section Cylinder.
  Context (a : nat) (Ha : 3 <= a).
  Let tris := map (ytri a) (ytags a).

  Lemma cyl_edge t u v : ytag_ok a t -> In (u, v) (edges3 (ytri a t)) -> edge_rel tris u v.
  Proof. intros Ht H. apply in_flat_map. exists (ytri a t). split; [apply in_map, ytags_ok; assumption|exact H]. Qed.
  Lemma cyl_edge_inv u v : edge_rel tris u v -> exists t, ytag_ok a t /\ In (u, v) (edges3 (ytri a t)).
  Proof.
    intros H. apply in_flat_map in H as (t0 & Ht & H). apply in_map_iff in Ht as (t & <- & Ht).
    exists t. split; [apply ytags_ok in Ht; assumption|exact H].
  Qed.
  Lemma cyl_turn t u v w : ytag_ok a t -> In (v, u) (edges3 (ytri a t)) -> In (u, w) (edges3 (ytri a t)) -> turns tris u v w.
  Proof. intros Ht H1 H2. exists (ytri a t). split; [apply in_map, ytags_ok; assumption|auto]. Qed.

  Lemma cyl_connected u v : yv_ok a u -> yv_ok a v -> chain (edge_rel tris) u v.
  Proof.
    assert (Hs := edge_sym tris (ytri_closed a Ha)).
    apply (chain_hub _ _ YB); [exact Hs|].
    assert (R : forall j, j < a -> chain (edge_rel tris) (YRB j) YB).
    { intros j Hj. apply chain_one, Hs. apply (cyl_edge (YCB j)); cbn; auto. }
    assert (R' : forall j, j < a -> chain (edge_rel tris) (YRT j) YB).
    { intros j Hj. eapply chain_trans; [|apply (R j Hj)]. apply chain_one, Hs. apply (cyl_edge (YM j)); cbn; auto. }
    intros [| |j|j] H; [constructor| |apply R, H|apply R', H].
    eapply chain_trans; [|apply (R' 0); lia]. apply chain_one. apply (cyl_edge (YCT 0)); cbn; [lia|auto].
  Qed.

  Lemma cyl_star u : yv_ok a u -> one_star tris u.
  Proof.
    intros Hu v w Hv Hw. apply cyl_edge_inv in Hv as (t & Ht & Hv). apply cyl_edge_inv in Hw as (t' & Ht' & Hw).
    destruct u as [| |j|j].
    - assert (K : forall t v, ytag_ok a t -> In (YB, v) (edges3 (ytri a t)) -> exists k, k < a /\ v = YRB k).
      { clear. intros [j|j|j|j] v Ht H; cbn in H; destruct H as [H|[H|[H|[]]]]; try discriminate H. injection H as <-. exists j; auto. }
      destruct (K t v Ht Hv) as (k & Hk & ->). destruct (K t' w Ht' Hw) as (l & Hl & ->).
      apply (chain_cycle' _ YRB a); [|assumption|assumption]. intros x Hx.
      apply (cyl_turn (YCB (prv a x))); cbn; rewrite ?nxt_prv by assumption; auto. apply prv_lt; assumption.
    - assert (K : forall t v, ytag_ok a t -> In (YT, v) (edges3 (ytri a t)) -> exists k, k < a /\ v = YRT k).
      { clear. intros [j|j|j|j] v Ht H; cbn in H; destruct H as [H|[H|[H|[]]]]; try discriminate H. injection H as <-. exists j; auto. }
      destruct (K t v Ht Hv) as (k & Hk & ->). destruct (K t' w Ht' Hw) as (l & Hl & ->).
      apply (chain_cycle _ YRT a); [|assumption|assumption]. intros x Hx.
      apply (cyl_turn (YCT x)); cbn; auto.
    - cbn in Hu. pose proof (prv_lt a Ha j Hu) as Hpl. pose proof (nxt_lt a Ha j Hu) as Hnl. pose proof (nxt_prv a Ha j Hu) as Hnp.
      set (f := turns tris (YRB j)).
      assert (C1 : chain f YB (YRB (nxt a j))) by (apply chain_one, (cyl_turn (YCB j)); cbn; auto).
      assert (C2 : chain f (YRB (nxt a j)) (YRT j)) by (apply chain_one, (cyl_turn (YM j)); cbn; auto).
      assert (C3 : chain f (YRT j) (YRT (prv a j))) by (apply chain_one, (cyl_turn (YN (prv a j))); cbn; rewrite ?Hnp; auto).
      assert (C4 : chain f (YRT (prv a j)) (YRB (prv a j))) by (apply chain_one, (cyl_turn (YM (prv a j))); cbn; rewrite ?Hnp; auto).
      assert (C5 : chain f (YRB (prv a j)) YB) by (apply chain_one, (cyl_turn (YCB (prv a j))); cbn; rewrite ?Hnp; auto).
      assert (K : forall t v, ytag_ok a t -> In (YRB j, v) (edges3 (ytri a t)) ->
                v = YB \/ v = YRB (nxt a j) \/ v = YRT j \/ v = YRT (prv a j) \/ v = YRB (prv a j)).
      { assert (Hpp : forall k, k < a -> nxt a k = j -> k = prv a j) by (clear - Ha Hu; intros k Hk E; cyc; lia).
        clear t v w t' Ht Hv Ht' Hw.
        intros [k|k|k|k] v Ht H; cbn [ytri edges3 In ytag_ok] in H, Ht; destruct H as [H|[H|[H|[]]]]; try discriminate H;
          injection H; clear H; intros; subst; try tauto; rewrite <- (Hpp k Ht eq_refl); tauto. }
      pose proof (chain_trans f) as T.
      apply (chain_loop f (fun v => v = YB \/ v = YRB (nxt a j) \/ v = YRT j \/ v = YRT (prv a j) \/ v = YRB (prv a j)) YB);
        [| |apply (K t v Ht Hv)|apply (K t' w Ht' Hw)].
      + intros z [->|[->|[->|[->| ->]]]]; eauto 6 using chain_refl.
      + intros z [->|[->|[->|[->| ->]]]]; eauto 6 using chain_refl.
    - cbn in Hu. pose proof (prv_lt a Ha j Hu) as Hpl. pose proof (nxt_lt a Ha j Hu) as Hnl.
      pose proof (nxt_prv a Ha j Hu) as Hnp. pose proof (prv_nxt a Ha j Hu) as Hpn.
      set (f := turns tris (YRT j)).
      assert (C1 : chain f YT (YRT (prv a j))) by (apply chain_one, (cyl_turn (YCT j)); cbn; auto).
      assert (C2 : chain f (YRT (prv a j)) (YRB j)) by (apply chain_one, (cyl_turn (YN (prv a j))); cbn; rewrite ?Hnp; auto).
      assert (C3 : chain f (YRB j) (YRB (nxt a j))) by (apply chain_one, (cyl_turn (YM j)); cbn; auto).
      assert (C4 : chain f (YRB (nxt a j)) (YRT (nxt a j))) by (apply chain_one, (cyl_turn (YN j)); cbn; auto).
      assert (C5 : chain f (YRT (nxt a j)) YT) by (apply chain_one, (cyl_turn (YCT (nxt a j))); cbn; rewrite ?Hpn; auto).
      assert (K : forall t v, ytag_ok a t -> In (YRT j, v) (edges3 (ytri a t)) ->
                v = YT \/ v = YRT (prv a j) \/ v = YRB j \/ v = YRB (nxt a j) \/ v = YRT (nxt a j)).
      { assert (Hpp : forall k, k < a -> nxt a k = j -> k = prv a j) by (clear - Ha Hu; intros k Hk E; cyc; lia).
        assert (Hnn : forall k, k < a -> prv a k = j -> k = nxt a j) by (clear - Ha Hu; intros k Hk E; cyc; lia).
        clear t v w t' Ht Hv Ht' Hw.
        intros [k|k|k|k] v Ht H; cbn [ytri edges3 In ytag_ok] in H, Ht; destruct H as [H|[H|[H|[]]]]; try discriminate H;
          injection H; clear H; intros; subst; tauto. }
      pose proof (chain_trans f) as T.
      apply (chain_loop f (fun v => v = YT \/ v = YRT (prv a j) \/ v = YRB j \/ v = YRB (nxt a j) \/ v = YRT (nxt a j)) YT);
        [| |apply (K t v Ht Hv)|apply (K t' w Ht' Hw)].
      + intros z [->|[->|[->|[->| ->]]]]; eauto 6 using chain_refl.
      + intros z [->|[->|[->|[->| ->]]]]; eauto 6 using chain_refl.
  Qed.
End Cylinder.
