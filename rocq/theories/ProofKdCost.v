(** * Proofs about the recursion of KdTree *)

From Coq Require Import List Arith Bool Lia Permutation.
From Verif Require Import Scalar Linal Result VecLemmas ModelKdTree SpecKdTree ModelKdCost ProofKdTree ProofKdTreeIEEE.
Import ListNotations.

Section Any.
  Context {S : Scalar} (L : Linal S) (n : nat) {P : Type} (SZ : nat).
  Notation tree := (@tree S n P).

  Fixpoint height (t : tree) : nat := match t with Leaf => 0 | Node _ _ l r => 1 + Nat.max (height l) (height r) end.

  Lemma height_elements (t : tree) : height t <= length (elements n t).
  Proof. induction t as [|p v l IHl r IHr]; [cbn; lia|]. cbn [height elements length]. rewrite app_length. lia. Qed.

  Lemma insert_c_fst (t : tree) : forall p v d, fst (insertHelper_c L SZ t p v d) = insertHelper L n SZ t p v d.
  Proof.
    induction t as [|q w l IHl r IHr]; intros p v d; [reflexivity|]. cbn. destruct (veq L q p); [reflexivity|].
    destruct (sltb _ _).
    - rewrite <- IHl. destruct (insertHelper_c L SZ l p v _) as [[]]. reflexivity.
    - rewrite <- IHr. destruct (insertHelper_c L SZ r p v _) as [[]]. reflexivity.
  Qed.
  Lemma insert_c_le (t : tree) : forall p v d, snd (insertHelper_c L SZ t p v d) <= 1 + height t.
  Proof.
    induction t as [|q w l IHl r IHr]; intros p v d; [cbn; lia|]. cbn. destruct (veq L q p); [cbn; lia|].
    destruct (sltb _ _).
    - specialize (IHl p v (next_depth SZ d)). destruct (insertHelper_c L SZ l p v _) as [[]]. cbn in *. lia.
    - specialize (IHr p v (next_depth SZ d)). destruct (insertHelper_c L SZ r p v _) as [[]]. cbn in *. lia.
  Qed.

  Lemma search_c_fst (t : tree) : forall p d, fst (searchHelper_c L SZ t p d) = searchHelper L n SZ t p d.
  Proof.
    induction t as [|q w l IHl r IHr]; intros p d; [reflexivity|]. cbn. destruct (veq L q p); [reflexivity|].
    destruct (sltb _ _).
    - rewrite <- IHl. destruct (searchHelper_c L SZ l p _). reflexivity.
    - rewrite <- IHr. destruct (searchHelper_c L SZ r p _). reflexivity.
  Qed.
  Lemma search_c_le (t : tree) : forall p d, snd (searchHelper_c L SZ t p d) <= 1 + height t.
  Proof.
    induction t as [|q w l IHl r IHr]; intros p d; [cbn; lia|]. cbn. destruct (veq L q p); [cbn; lia|].
    destruct (sltb _ _).
    - specialize (IHl p (next_depth SZ d)). destruct (searchHelper_c L SZ l p _). cbn in *. lia.
    - specialize (IHr p (next_depth SZ d)). destruct (searchHelper_c L SZ r p _). cbn in *. lia.
  Qed.

  Lemma nearest_c_spec (t : tree) : forall h q b d,
    fst (nearestHelper_c n SZ t h q b d) = nearestHelper n SZ t h q b d /\
    let c := snd (nearestHelper_c n SZ t h q b d) in
    calls c <= 2 * length (elements n t) + 1 /\ nesting c <= 1 + height t /\ distances c <= length (elements n t).
  Proof.
    induction t as [|p v l IHl r IHr]; intros h q b d; [cbn; split; [reflexivity|lia]|].
    cbn [nearestHelper_c nearestHelper elements length height]. rewrite app_length. cbv zeta.
    set (b1 := if sltb (kd_distance p q) (b_dist b) then _ else b).
    destruct (sltb (ssub _ _) s0) eqn:E; cbn [negb].
    - destruct (IHl (h ++ [false]) q b1 (next_depth SZ d)) as (E2 & K2). destruct (nearestHelper_c n SZ l _ q b1 _) as [b2 c2].
      cbn [fst snd] in E2, K2. subst b2. destruct (sltb (sabs _) _).
      + destruct (IHr (h ++ [true]) q (nearestHelper n SZ l (h ++ [false]) q b1 (next_depth SZ d)) (next_depth SZ d)) as (E3 & K3).
        destruct (nearestHelper_c n SZ r _ q _ _) as [b3 c3]. cbn [fst snd] in *. subst b3. cbn. split; [reflexivity|]. lia.
      + cbn. split; [reflexivity|]. lia.
    - destruct (IHr (h ++ [true]) q b1 (next_depth SZ d)) as (E2 & K2). destruct (nearestHelper_c n SZ r _ q b1 _) as [b2 c2].
      cbn [fst snd] in E2, K2. subst b2. destruct (sltb (sabs _) _).
      + destruct (IHl (h ++ [false]) q (nearestHelper n SZ r (h ++ [true]) q b1 (next_depth SZ d)) (next_depth SZ d)) as (E3 & K3).
        destruct (nearestHelper_c n SZ l _ q _ _) as [b3 c3]. cbn [fst snd] in *. subst b3. cbn. split; [reflexivity|]. lia.
      + cbn. split; [reflexivity|]. lia.
  Qed.

  Lemma destroy_c_fst (t : tree) : Permutation (fst (destroy_c t)) (elements n t).
  Proof.
    induction t as [|p v l IHl r IHr]; [constructor|]. cbn. destruct (destroy_c r) as [a i], (destroy_c l) as [b j]. cbn in *.
    rewrite IHl, IHr. rewrite app_assoc, <- Permutation_cons_append. constructor. apply Permutation_app_comm.
  Qed.
  Lemma destroy_c_height (t : tree) : snd (destroy_c t) = height t.
  Proof.
    induction t as [|p v l IHl r IHr]; [reflexivity|]. cbn. destruct (destroy_c r) as [a i], (destroy_c l) as [b j]. cbn in *. subst.
    f_equal. apply Nat.max_comm.
  Qed.

  Lemma nodes_accepted (hist : list (op S n P)) : length (elements n (root (run L SZ hist))) = length (accepted L SZ hist).
  Proof. apply Permutation_length. apply (ia_acc L n SZ hist (inva_run L n SZ hist)). Qed.

  (** a chain: every node hangs to the right of the one before *)
  Fixpoint chain (l : list (vec S n * P)) : tree := match l with [] => Leaf | (p, v) :: k => Node p v Leaf (chain k) end.

  Lemma chain_height l : height (chain l) = length l.
  Proof. induction l as [|[p v] l IH]; [reflexivity|]. cbn. now rewrite IH. Qed.

  Definition beyond (p : vec S n) (l : list (vec S n * P)) : Prop :=
    forall q v, In (q, v) l -> veq L q p = false /\ forall d, sltb (vnth s0 (d mod n) p) (vnth s0 (d mod n) q) = false.

  Lemma insert_chain l p v : beyond p l -> forall d, insertHelper_c L SZ (chain l) p v d = ((chain (l ++ [(p, v)]), true), Datatypes.S (length l)).
  Proof.
    induction l as [|[q w] l IH]; intros H d; [reflexivity|]. cbn. destruct (H q w) as [E1 E2]; [now left|]. rewrite E1, E2.
    rewrite IH; [reflexivity|]. intros q' v' Hin. apply (H q' v'). now right.
  Qed.
  Lemma search_chain l p : beyond p l -> forall d, searchHelper_c L SZ (chain l) p d = (false, Datatypes.S (length l)).
  Proof.
    induction l as [|[q w] l IH]; intros H d; [reflexivity|]. cbn. destruct (H q w) as [E1 E2]; [now left|]. rewrite E1, E2.
    rewrite IH; [reflexivity|]. intros q' v' Hin. apply (H q' v'). now right.
  Qed.
  Lemma nearest_chain l p : (forall q v, In (q, v) l -> forall d, sltb (ssub (vnth s0 (d mod n) p) (vnth s0 (d mod n) q)) s0 = false) ->
    forall h b d, nesting (snd (nearestHelper_c n SZ (chain l) h p b d)) = Datatypes.S (length l).
  Proof.
    induction l as [|[q w] l IH]; intros H h b d; [reflexivity|]. cbn [chain nearestHelper_c length]. cbv zeta. rewrite (H q w); [|now left]. cbn [negb].
    set (b1 := if sltb (kd_distance q p) (b_dist b) then _ else b).
    specialize (IH (fun q' v' K => H q' v' (or_intror K)) (h ++ [true]) b1 (next_depth SZ d)).
    destruct (nearestHelper_c n SZ (chain l) _ p b1 _) as [b2 c2]. cbn in IH. destruct (sltb (sabs _) _); cbn; lia.
  Qed.
End Any.

Section Sorted.
  Context {S : Scalar} (L : Linal S) (n : nat) {P : Type} (SZ : nat) (v : P).
  Context (pt : nat -> vec S n)
    (Heq : forall i j, i < j -> veq L (pt i) (pt j) = false)
    (Hlt : forall i j d, i < j -> sltb (vnth s0 (d mod n) (pt j)) (vnth s0 (d mod n) (pt i)) = false).

  Definition sorted_hist (N : nat) : list (op S n P) := map (fun i => OpInsert (pt i) v) (seq 0 N).
  Definition sorted_items (N : nat) : list (vec S n * P) := map (fun i => (pt i, v)) (seq 0 N).

  Lemma sorted_beyond N : beyond L n (pt N) (sorted_items N).
  Proof.
    intros q w Hin. apply in_map_iff in Hin as (i & [= <- <-] & Hi). apply in_seq in Hi. split; [apply Heq; lia|].
    intros d. apply Hlt. lia.
  Qed.

  Lemma sorted_run N : root (run L SZ (sorted_hist N)) = chain n (sorted_items N) /\ accepted L SZ (sorted_hist N) = rev (sorted_items N).
  Proof.
    induction N as [|N [IH IA]]; [split; reflexivity|]. unfold sorted_hist, sorted_items in *. rewrite seq_S, !map_app. cbn [map]. rewrite Nat.add_0_l.
    pose proof (insert_chain L n SZ _ _ v (sorted_beyond N) 0) as E. pose proof (insert_c_fst L n SZ (chain n (sorted_items N)) (pt N) v 0) as E'.
    rewrite E in E'. cbn in E'. unfold sorted_items in E'. rewrite <- IH in E'. split.
    - rewrite run_app. cbn [fold_left step]. unfold insert. rewrite <- E'. reflexivity.
    - rewrite (acc_snoc L n SZ). cbn [step]. unfold insert. rewrite <- E'. cbn. rewrite rev_app_distr. cbn. now rewrite IA.
  Qed.
End Sorted.
