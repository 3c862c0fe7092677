(** * Validity of arbitrary meshes *)

From Coq Require Import List Arith Bool Lia Sorting.Sorted.
From Verif Require Import Scalar Linal Result ModelMesh SpecMesh SpecValid ProofMeshValid.
Import ListNotations.

Local Arguments Nat.ltb _ _ : simpl never.
Local Arguments Nat.eqb _ _ : simpl never.
Local Arguments vec _ _ : simpl never.

Section Bool.
  Lemma idx_given W i : idx_valid W i = true <-> given W i.
  Proof. unfold idx_valid, given. destruct (Nat.eqb_spec i (W - 1)); cbn; intuition congruence. Qed.
  Lemma idx_not_given W i : idx_valid W i = false <-> ~ given W i.
  Proof. rewrite <- idx_given. destruct (idx_valid W i); intuition congruence. Qed.
  Lemma not_null_iff p : not_null p = true <-> p <> None.
  Proof. destruct p; cbn; intuition congruence. Qed.
  Lemma is_sorted_iff l : is_sorted l = true <-> Sorted le l.
  Proof.
    induction l as [|x l IH]; [split; [constructor|reflexivity]|]. destruct l as [|y l].
    - split; [repeat constructor|reflexivity].
    - change (is_sorted (x :: y :: l)) with (negb (y <? x) && is_sorted (y :: l)). rewrite andb_true_iff, IH, negb_true_iff, Nat.ltb_ge. split.
      + intros (A & B). constructor; [exact B|constructor; exact A].
      + intros H. inversion H as [|? ? A B]; subst. inversion B; subst. auto.
  Qed.

  Lemma checked_true dbg (b : bool) : (let* _ := geo_assert dbg b in Ok b) = Ok true <-> b = true.
  Proof. destruct dbg, b; cbn; split; congruence. Qed.

  Lemma all_valid_iff {A} (p : A -> res bool) (l : list A) : all_valid p l = Ok true <-> forall x, In x l -> p x = Ok true.
  Proof.
    split; [|apply all_valid_true]. induction l as [|x l IH]; intros H y Hy; [destruct Hy|].
    cbn [all_valid] in H. destruct (p x) as [[|]| | | |] eqn:E; cbn in H; try discriminate.
    destruct Hy as [<-|Hy]; [exact E|exact (IH H y Hy)].
  Qed.
  Lemma all_valid_total {A} (p : A -> res bool) (l : list A) : (forall x, In x l -> exists b, p x = Ok b) -> exists b, all_valid p l = Ok b.
  Proof.
    induction l as [|x l IH]; intros H; cbn; [eauto|]. destruct (H x (or_introl eq_refl)) as (b & E). rewrite E. cbn.
    destruct b; [apply IH; intros y Hy; apply H; right; exact Hy|eauto].
  Qed.
End Bool.

Section Valid.
  Context {S : Scalar} (W : nat) (dbg : bool) (mm : mem S).

  Lemma vertex_valid_iff v : vertex_is_valid W dbg v = Ok true <-> good_vertex W v.
  Proof.
    unfold vertex_is_valid, good_vertex. rewrite checked_true, !andb_true_iff, not_null_iff, idx_given, is_sorted_iff, forallb_forall.
    setoid_rewrite idx_given. tauto.
  Qed.
  Lemma facet_valid_iff f : facet_is_valid W dbg f = Ok true <-> good_facet W f.
  Proof. unfold facet_is_valid, good_facet. rewrite checked_true, andb_true_iff, not_null_iff, idx_given. tauto. Qed.

  Lemma at_inv {A} (l : list A) i x : at_ l i = Ok x <-> nth_error l i = Some x.
  Proof. unfold at_. destruct (nth_error l i); split; congruence. Qed.
  Lemma deref_inv p m : deref mm p = Ok m <-> exists a, p = Some a /\ mm a = Some m.
  Proof.
    unfold deref. destruct p as [a|].
    - destruct (mm a) as [m'|] eqn:E; split.
      + intros H. apply Ok_inj in H. subst. eauto.
      + intros (b & Hb & H). apply Some_inj in Hb. subst. congruence.
      + discriminate.
      + intros (b & Hb & H). apply Some_inj in Hb. subst. congruence.
    - split; [discriminate|]. intros (b & Hb & _). discriminate.
  Qed.

  Lemma impl_iff h : halfedge_is_valid_impl W mm h = Ok true <-> good_halfedge W mm h.
  Proof.
    unfold halfedge_is_valid_impl, good_halfedge.
    destruct (idx_valid W (he_index h)) eqn:E1, (idx_valid W (he_vertex h)) eqn:E2, (idx_valid W (he_facet h)) eqn:E3,
      (idx_valid W (he_next h)) eqn:E4, (idx_valid W (he_prev h)) eqn:E5, (idx_valid W (he_opp h)) eqn:E6; cbn [andb negb];
      rewrite ?idx_given, ?idx_not_given in *; try (split; [discriminate|tauto]).
    destruct (he_ptr h) as [a|] eqn:Ep; cbn [not_null negb].
    2:{ split; [discriminate|]. intros (_ & _ & _ & _ & _ & _ & a & m & H & _). discriminate. }
    unfold getVertex, getOpposite, getNext, getPrevious. rewrite Ep. unfold deref.
    destruct (mm a) as [m|] eqn:Em; cbn [bind].
    2:{ split; [discriminate|]. intros (_ & _ & _ & _ & _ & _ & b & m & H & K & _). apply Some_inj in H. subst. congruence. }
    transitivity (good_links m h).
    2:{ split; [intros H; repeat (split; [assumption|]); eauto|]. intros (_ & _ & _ & _ & _ & _ & b & m' & H & K & J).
        apply Some_inj in H. subst b. rewrite Em in K. apply Some_inj in K. subst m'. exact J. }
    unfold good_links, at_.
    destruct (nth_error (m_vertices m) (he_vertex h)) as [v|] eqn:Ev; cbn [bind].
    2:{ split; [discriminate|]. intros (v & o & n & p & H & _). congruence. }
    destruct (existsb (fun k => k =? he_index h) (v_hes v)) eqn:Ex; cbn [negb].
    2:{ split; [discriminate|]. intros (v' & o & n & p & H & _ & _ & _ & Hi & _). apply Some_inj in H. subst v'.
        assert (existsb (fun k => k =? he_index h) (v_hes v) = true); [|congruence].
        apply existsb_exists. exists (he_index h). split; [exact Hi|apply Nat.eqb_refl]. }
    assert (Hin : In (he_index h) (v_hes v)).
    { apply existsb_exists in Ex as (k & Hk & E). apply Nat.eqb_eq in E. subst. exact Hk. }
    destruct (nth_error (m_halfedges m) (he_opp h)) as [o|] eqn:Eo; cbn [bind].
    2:{ split; [discriminate|]. intros (v' & o & n & p & _ & H & _). congruence. }
    destruct (Nat.eqb_spec (he_opp o) (he_index h)) as [H1|H1]; cbn [negb].
    2:{ split; [discriminate|]. intros (v' & o' & n & p & _ & H & _ & _ & _ & K & _). apply Some_inj in H. subst. contradiction. }
    destruct (nth_error (m_halfedges m) (he_next h)) as [n|] eqn:En; cbn [bind].
    2:{ split; [discriminate|]. intros (v' & o' & n & p & _ & _ & H & _). congruence. }
    destruct (Nat.eqb_spec (he_prev n) (he_index h)) as [H2|H2]; cbn [negb].
    2:{ split; [discriminate|]. intros (v' & o' & n' & p & _ & _ & H & _ & _ & _ & K & _). apply Some_inj in H. subst. contradiction. }
    destruct (nth_error (m_halfedges m) (he_prev h)) as [p|] eqn:Epv; cbn [bind].
    2:{ split; [discriminate|]. intros (v' & o' & n' & p & _ & _ & _ & H & _). congruence. }
    destruct (Nat.eqb_spec (he_next p) (he_index h)) as [H3|H3].
    - split; [intros _; exists v, o, n, p; auto 10|reflexivity].
    - split; [intros H; apply Ok_inj in H; discriminate|].
      intros (v' & o' & n' & p' & _ & _ & _ & H & _ & _ & _ & K). apply Some_inj in H. subst. contradiction.
  Qed.

  Lemma halfedge_valid_iff h : halfedge_is_valid W dbg mm h = Ok true <-> good_halfedge W mm h.
  Proof.
    unfold halfedge_is_valid. rewrite <- impl_iff. destruct (halfedge_is_valid_impl W mm h) as [b| | | |]; cbn [bind].
    - rewrite checked_true. split; [intros ->; reflexivity|apply Ok_inj].
    - split; discriminate.
    - split; discriminate.
    - split; discriminate.
    - split; discriminate.
  Qed.

  Lemma mesh_valid_iff m : mesh_is_valid W dbg mm m = Ok true <-> good_mesh W mm m.
  Proof.
    unfold mesh_is_valid, good_mesh. split.
    - intros H. destruct (all_valid (vertex_is_valid W dbg) (m_vertices m)) as [[|]| | | |] eqn:E1; cbn [bind negb] in H; try discriminate.
      destruct (all_valid (halfedge_is_valid W dbg mm) (m_halfedges m)) as [[|]| | | |] eqn:E2; cbn [bind negb] in H; try discriminate.
      pose proof (proj1 (all_valid_iff _ _) E1) as G1. pose proof (proj1 (all_valid_iff _ _) E2) as G2. pose proof (proj1 (all_valid_iff _ _) H) as G3.
      split; [intros x Hx; apply vertex_valid_iff, G1, Hx|]. split; [intros x Hx; apply halfedge_valid_iff, G2, Hx|].
      intros x Hx; apply facet_valid_iff, G3, Hx.
    - intros (H1 & H2 & H3).
      rewrite (proj2 (all_valid_iff _ _)) by (intros v Hv; apply vertex_valid_iff, H1, Hv). cbn [bind negb].
      rewrite (proj2 (all_valid_iff _ _)) by (intros v Hv; apply halfedge_valid_iff, H2, Hv). cbn [bind negb].
      apply all_valid_iff. intros f Hf. apply facet_valid_iff, H3, Hf.
  Qed.

  Lemma impl_total h : readable mm h -> exists b, halfedge_is_valid_impl W mm h = Ok b.
  Proof.
    intros H. unfold halfedge_is_valid_impl, getVertex, getOpposite, getNext, getPrevious, deref, at_.
    destruct (he_ptr h) as [a|] eqn:Ep.
    - destruct (H a Ep) as (m & Em & L1 & L2 & L3 & L4). rewrite Em. cbn [bind].
      apply nth_error_Some in L1, L2, L3, L4.
      destruct (nth_error (m_vertices m) (he_vertex h)); [|contradiction].
      destruct (nth_error (m_halfedges m) (he_opp h)); [|contradiction].
      destruct (nth_error (m_halfedges m) (he_next h)); [|contradiction].
      destruct (nth_error (m_halfedges m) (he_prev h)); [|contradiction]. cbn [bind].
      repeat match goal with |- context [if ?b then _ else _] => destruct b end; eauto.
    - rewrite andb_false_r. cbn. eauto.
  Qed.
End Valid.

(** ** Closed chains *)
Section Chain.
  Context (N : nat) (nx pv : nat -> nat).
  Context (Hnx : forall i, i < N -> nx i < N) (Hpv : forall i, i < N -> pv (nx i) = i).

  Lemma iter_lt i k : i < N -> Nat.iter k nx i < N.
  Proof. intros Hi. induction k; cbn; auto. Qed.
  Lemma iter_back i k l : i < N -> Nat.iter k nx i = Nat.iter (k + l) nx i -> Nat.iter l nx i = i.
  Proof.
    intros Hi. induction k as [|k IH]; intros H; [symmetry; exact H|]. change (nx (Nat.iter k nx i) = nx (Nat.iter (k + l) nx i)) in H.
    apply IH. rewrite <- (Hpv (Nat.iter k nx i)) by (apply iter_lt; exact Hi).
    rewrite <- (Hpv (Nat.iter (k + l) nx i)) by (apply iter_lt; exact Hi). congruence.
  Qed.
  Lemma iter_nodup i n : i < N -> (forall k, 0 < k < n -> Nat.iter k nx i <> i) -> NoDup (map (fun k => Nat.iter k nx i) (seq 0 n)).
  Proof.
    intros Hi H. apply (NoDup_nth _ (Nat.iter 0 nx i)). rewrite map_length, seq_length. intros x y Hx Hy.
    rewrite !(map_nth (fun k => Nat.iter k nx i) _ 0), !seq_nth, !Nat.add_0_l by assumption. intros E.
    destruct (Nat.lt_trichotomy x y) as [Hl|[He|Hl]]; [exfalso|exact He|exfalso].
    - apply (H (y - x)); [lia|]. apply (iter_back i x); [exact Hi|]. replace (x + (y - x)) with y by lia. exact E.
    - apply (H (x - y)); [lia|]. apply (iter_back i y); [exact Hi|]. replace (y + (x - y)) with x by lia. congruence.
  Qed.
  Lemma least (P : nat -> bool) n : (exists k, k <= n /\ P k = true) -> exists k, k <= n /\ P k = true /\ forall l, l < k -> P l = false.
  Proof.
    induction n as [|n IH]; intros (k & Hk & E).
    - exists 0. replace k with 0 in E by lia. split; [lia|]. split; [exact E|]. intros l Hl. lia.
    - destruct (existsb P (seq 0 (Datatypes.S n))) eqn:Ex.
      + apply existsb_exists in Ex as (l & Hl & El). apply in_seq in Hl.
        destruct IH as (x & H1 & H2); [exists l; split; [lia|exact El]|]. exists x. split; [lia|exact H2].
      + assert (F : forall l, l <= n -> P l = false).
        { intros l Hl. destruct (P l) eqn:El; [|reflexivity]. assert (existsb P (seq 0 (Datatypes.S n)) = true); [|congruence].
          apply existsb_exists. exists l. split; [apply in_seq; lia|exact El]. }
        assert (k = Datatypes.S n) by (destruct (Nat.eq_dec k (Datatypes.S n)); [assumption|rewrite F in E by lia; discriminate]). subst k.
        exists (Datatypes.S n). split; [lia|]. split; [exact E|]. intros l Hl. apply F. lia.
  Qed.
  Lemma return_time i : i < N -> exists n, 0 < n <= N /\ Nat.iter n nx i = i /\ forall k, 0 < k < n -> Nat.iter k nx i <> i.
  Proof.
    intros Hi. set (P := fun k => Nat.iter (Datatypes.S k) nx i =? i).
    destruct (existsb P (seq 0 N)) eqn:Ex.
    - apply existsb_exists in Ex as (l & Hl & El). apply in_seq in Hl.
      destruct (least P (N - 1)) as (k & Hk & Ek & Hmin); [exists l; split; [lia|exact El]|].
      exists (Datatypes.S k). split; [lia|]. split; [apply Nat.eqb_eq; exact Ek|].
      intros j Hj E. assert (P (j - 1) = false) by (apply Hmin; lia). unfold P in H. replace (Datatypes.S (j - 1)) with j in H by lia.
      apply Nat.eqb_neq in H. contradiction.
    - exfalso. assert (ND : NoDup (map (fun k => Nat.iter k nx i) (seq 0 (Datatypes.S N)))).
      { apply iter_nodup; [exact Hi|]. intros k Hk E. assert (existsb P (seq 0 N) = true); [|congruence].
        apply existsb_exists. exists (k - 1). split; [apply in_seq; lia|]. unfold P. replace (Datatypes.S (k - 1)) with k by lia. apply Nat.eqb_eq, E. }
      assert (I : incl (map (fun k => Nat.iter k nx i) (seq 0 (Datatypes.S N))) (seq 0 N)).
      { intros x Hx. apply in_map_iff in Hx as (k & <- & _). apply in_seq. split; [lia|apply iter_lt; exact Hi]. }
      pose proof (NoDup_incl_length ND I) as K. rewrite map_length, !seq_length in K. lia.
  Qed.
End Chain.

Section Loop.
  Context {S : Scalar} (W : nat) (mm : mem S) (a : addr) (m : mesh S) (Hm : mm a = Some m).
  Context (Hnum : numbered a m) (Hgood : good_mesh W mm m).
  Let N := length (m_halfedges m).
  Definition nxt (i : nat) : nat := match nth_error (m_halfedges m) i with Some h => he_next h | None => 0 end.
  Definition prv (i : nat) : nat := match nth_error (m_halfedges m) i with Some h => he_prev h | None => 0 end.
  Definition opo (i : nat) : nat := match nth_error (m_halfedges m) i with Some h => he_opp h | None => 0 end.

  Lemma he_at i : i < N -> exists h, nth_error (m_halfedges m) i = Some h /\ he_index h = i /\ he_ptr h = Some a /\ good_links m h.
  Proof.
    intros Hi. destruct (nth_error (m_halfedges m) i) as [h|] eqn:E; [|apply nth_error_None in E; unfold N in Hi; lia].
    exists h. split; [reflexivity|]. destruct (Hnum i h E) as (E1 & E2). split; [exact E1|]. split; [exact E2|].
    destruct Hgood as (_ & G & _). destruct (G h (nth_error_In _ _ E)) as (_ & _ & _ & _ & _ & _ & b & m' & E3 & E4 & K).
    rewrite E2 in E3. apply Some_inj in E3. subst b. rewrite Hm in E4. apply Some_inj in E4. subst m'. exact K.
  Qed.
  Lemma nth_lt i h : nth_error (m_halfedges m) i = Some h -> i < N.
  Proof. intros H. apply nth_error_Some. congruence. Qed.
  Lemma nxt_ok i : i < N -> nxt i < N /\ prv (nxt i) = i.
  Proof.
    intros Hi. destruct (he_at i Hi) as (h & E & Ei & _ & v & o & n & p & _ & _ & En & _ & _ & _ & K & _).
    unfold nxt. rewrite E. split; [exact (nth_lt _ _ En)|]. unfold prv. rewrite En. congruence.
  Qed.
  Lemma prv_ok i : i < N -> prv i < N /\ nxt (prv i) = i.
  Proof.
    intros Hi. destruct (he_at i Hi) as (h & E & Ei & _ & v & o & n & p & _ & _ & _ & Ep & _ & _ & _ & K).
    unfold prv. rewrite E. split; [exact (nth_lt _ _ Ep)|]. unfold nxt. rewrite Ep. congruence.
  Qed.
  Lemma opo_ok i : i < N -> opo i < N /\ opo (opo i) = i.
  Proof.
    intros Hi. destruct (he_at i Hi) as (h & E & Ei & _ & v & o & n & p & _ & Eo & _ & _ & _ & K & _).
    unfold opo. rewrite E. split; [exact (nth_lt _ _ Eo)|]. rewrite Eo. congruence.
  Qed.

  Definition hat (i : nat) : halfedge := match nth_error (m_halfedges m) i with Some h => h | None => mkHe 0 0 0 0 0 0 None end.
  Lemma hat_ok i : i < N -> nth_error (m_halfedges m) i = Some (hat i) /\ he_index (hat i) = i /\ he_ptr (hat i) = Some a /\ he_next (hat i) = nxt i.
  Proof.
    intros Hi. destruct (he_at i Hi) as (h & E & Ei & Ep & _). unfold hat, nxt. rewrite E. auto.
  Qed.

  Context (f : facet) (Hf : f_ptr f = Some a) (Hfi : f_he f < N).
  Let s := f_he f.
  Let it k := Nat.iter k nxt s.
  Lemma it_lt k : it k < N.
  Proof. apply iter_lt; [intros i Hi; apply nxt_ok; exact Hi|exact Hfi]. Qed.
  Lemma facet_start : facet_getHalfedge mm f = Ok (hat s).
  Proof.
    unfold facet_getHalfedge, deref. rewrite Hf, Hm. cbn [bind]. unfold at_. fold s.
    rewrite (proj1 (hat_ok s Hfi)). reflexivity.
  Qed.
  Lemma next_it k : getNext mm (hat (it k)) = Ok (hat (it (Datatypes.S k))).
  Proof.
    destruct (hat_ok (it k) (it_lt k)) as (E & _ & Ep & En). unfold getNext, deref. rewrite Ep, Hm. cbn [bind]. unfold at_.
    rewrite En. change (nxt (it k)) with (it (Datatypes.S k)). rewrite (proj1 (hat_ok _ (it_lt (Datatypes.S k)))). reflexivity.
  Qed.
  Lemma start_ne k : halfedge_ne (hat s) (hat (it k)) = negb (it k =? s).
  Proof.
    unfold halfedge_ne, halfedge_eq. rewrite (proj1 (proj2 (hat_ok _ (it_lt k)))), (proj1 (proj2 (hat_ok s Hfi))). reflexivity.
  Qed.

  (** the loop from the [k]-th halfedge, if the chain closes after [n] *)
  Lemma walk_ok n (Hn : it n = s) (Hmin : forall k, 0 < k < n -> it k <> s) : forall l k fuel, 1 <= k -> k + 1 + l = n -> l <= fuel ->
    walk mm f fuel (hat (it k)) = Ok (map (fun j => hat (it j)) (seq (k + 1) l)).
  Proof.
    induction l as [|l IH]; intros k fuel Hk E Hfu.
    - assert (W0 : forall fu, walk mm f fu (hat (it k)) = (let* x := facet_getHalfedge mm f in let* y := getNext mm (hat (it k)) in
        if halfedge_ne x y then match fu with O => Diverge | Datatypes.S j => let* r := walk mm f j y in Ok (y :: r) end else Ok [])) by (intros [|fu]; reflexivity).
      rewrite W0, facet_start, next_it. cbn [bind]. rewrite start_ne. replace (Datatypes.S k) with n by lia. rewrite Hn, Nat.eqb_refl. reflexivity.
    - destruct fuel as [|fuel]; [lia|]. cbn [walk]. rewrite facet_start, next_it. cbn [bind]. rewrite start_ne.
      destruct (Nat.eqb_spec (it (Datatypes.S k)) s) as [C|C]; [exfalso; apply (Hmin (Datatypes.S k)); [lia|exact C]|]. cbn [negb].
      rewrite (IH (Datatypes.S k) fuel) by lia. cbn [bind]. replace (k + 1) with (Datatypes.S k) by lia. cbn [seq map].
      replace (Datatypes.S k + 1) with (Datatypes.S (Datatypes.S k)) by lia. reflexivity.
  Qed.

  Lemma calc_halfedges_loop : exists l, loop_from m s l /\
    calc_halfedges mm f = Ok (match l with [h] => [h; h] | _ => l end).
  Proof.
    destruct (return_time N nxt prv (fun i Hi => proj1 (nxt_ok i Hi)) (fun i Hi => proj2 (nxt_ok i Hi)) s Hfi) as (n & Hn0 & Hn & Hmin).
    fold (it n) in Hn. exists (map (fun j => hat (it j)) (seq 0 n)).
    assert (Hnth : forall k, k < n -> nth_error (map (fun j => hat (it j)) (seq 0 n)) k = Some (hat (it k))).
    { intros k Hk. rewrite (map_nth_error _ k (seq 0 n) (d := k)); [reflexivity|]. rewrite (nth_error_nth' _ 0) by (rewrite seq_length; exact Hk). rewrite seq_nth by exact Hk. reflexivity. }
    split.
    - split; [|split; [|split]].
      + rewrite map_map. erewrite map_ext; [apply (iter_nodup N nxt prv (fun i Hi => proj1 (nxt_ok i Hi)) (fun i Hi => proj2 (nxt_ok i Hi)) s n Hfi Hmin)|].
        intros k. exact (proj1 (proj2 (hat_ok _ (it_lt k)))).
      + destruct n; [lia|discriminate].
      + exists (hat s). split; [exact (Hnth 0 (proj1 Hn0))|exact (proj1 (hat_ok s Hfi))].
      + intros k h Hk. assert (Hkn : k < n).
        { assert (K : nth_error (map (fun j => hat (it j)) (seq 0 n)) k <> None) by congruence. apply nth_error_Some in K. rewrite map_length, seq_length in K. exact K. }
        rewrite (Hnth k Hkn) in Hk. apply Some_inj in Hk. subst h.
        exists (hat (it (k + 1))). rewrite (proj2 (proj2 (proj2 (hat_ok _ (it_lt k))))).
        replace (k + 1) with (Datatypes.S k) by lia. split; [exact (proj1 (hat_ok _ (it_lt (Datatypes.S k))))|].
        destruct (Nat.eq_dec (Datatypes.S k) n) as [C|C].
        * right. rewrite map_length, seq_length. split; [exact C|]. rewrite C, Hn. exact (Hnth 0 (proj1 Hn0)).
        * left. apply Hnth. lia.
    - unfold calc_halfedges, deref. rewrite Hf, Hm. cbn [bind]. rewrite facet_start. cbn [bind].
      change (hat s) with (hat (it 0)) at 1. rewrite next_it. cbn [bind]. destruct n as [|[|n]]; [lia| |].
      + assert (W0 : forall fu, walk mm f fu (hat (it 1)) = (let* x := facet_getHalfedge mm f in let* y := getNext mm (hat (it 1)) in
          if halfedge_ne x y then match fu with O => Diverge | Datatypes.S j => let* r := walk mm f j y in Ok (y :: r) end else Ok [])) by (intros [|fu]; reflexivity).
        rewrite W0, facet_start, next_it. cbn [bind]. rewrite start_ne.
        assert (E2 : it 2 = s) by (change (it 2) with (nxt (it 1)); rewrite Hn; exact Hn).
        rewrite E2, Nat.eqb_refl. cbn [negb bind]. rewrite Hn. reflexivity.
      + rewrite (walk_ok (Datatypes.S (Datatypes.S n)) Hn Hmin n 1) by (try lia; unfold N in Hn0; lia). reflexivity.
  Qed.
End Loop.
