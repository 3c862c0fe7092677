(** * Property theorems: recursion of KdTree (C64) *)

From Coq Require Import List Arith Bool Lia Permutation Reals Lra ZArith.
From Verif Require Import Scalar Linal Result VecLemmas SpecReal VecR ModelKdTree SpecKdTree ModelKdCost ProofKdTree ProofKdTreeIEEE ProofKdCost.
Import ListNotations.

(** ** C64 *)

(** Nested calls never exceed the number [k] of stored points by more than one;
    [nearest] computes at most [k + 1] distances; the destructor destroys every
    stored value exactly once.  The counting functions return what the functions
    of the model return. *)
Theorem C64_recursion_bounded :
  forall (S : Scalar) (L : Linal S) (n : nat) (P : Type) (SZ : nat) (hist : list (op S n P)),
    let t := run L SZ hist in
    let k := length (accepted L SZ hist) in
    (forall p v, let '(r, c) := insertHelper_c L SZ (root t) p v 0 in
       insert L SZ t p v = (mkKd (fst r) (if snd r then (msize t + 1) mod SZ else msize t), snd r) /\ c <= k + 1) /\
    (forall p, let '(b, c) := searchHelper_c L SZ (root t) p 0 in search L SZ t p = b /\ c <= k + 1) /\
    (forall q, match nearest_c SZ t q with
               | Ok (b, c) => nearest SZ t q = Ok b /\ calls c <= 2 * k + 1 /\ nesting c <= k + 1 /\ distances c <= k + 1
               | _ => nearest SZ t q = Throw
               end) /\
    (let '(l, c) := destroy_c (root t) in Permutation l (accepted L SZ hist) /\ c <= k).
Proof.
  intros S L n P SZ hist t k. pose proof (nodes_accepted L n SZ hist) as Hk. pose proof (height_elements n (root t)) as Hh.
  fold t k in Hk. repeat split.
  - intros p v. pose proof (insert_c_fst L n SZ (root t) p v 0) as E. pose proof (insert_c_le L n SZ (root t) p v 0) as H.
    destruct (insertHelper_c L SZ (root t) p v 0) as [[r b] c]. cbn in *. unfold insert. rewrite <- E. split; [reflexivity|lia].
  - intros p. pose proof (search_c_fst L n SZ (root t) p 0) as E. pose proof (search_c_le L n SZ (root t) p 0) as H.
    destruct (searchHelper_c L SZ (root t) p 0) as [b c]. cbn in *. unfold search. split; [auto|lia].
  - intros q. unfold nearest_c, nearest. destruct (root t) as [|p v l r] eqn:Et; [reflexivity|].
    destruct (nearest_c_spec n SZ (Node p v l r) [] q (mkBest [] p v (kd_distance q p)) 0) as (E & K).
    destruct (nearestHelper_c n SZ (Node p v l r) _ q _ 0) as [b c]. cbn [fst snd] in E, K. subst b. split; [reflexivity|]. cbn [calls nesting distances] in *. lia.
  - pose proof (destroy_c_fst n (root t)) as E. pose proof (destroy_c_height n (root t)) as H. destruct (destroy_c (root t)) as [l c]. cbn in *.
    split; [|lia]. rewrite E. apply (ia_acc L n SZ hist (inva_run L n SZ hist)).
Qed.
Print Assumptions C64_recursion_bounded.

(** The bound is reached: points inserted in increasing order (on every axis) make
    a chain.  Destroying it nests as many calls as there are points, and inserting
    or searching the next point one more. *)
Theorem C64_sorted_input :
  forall (S : Scalar) (L : Linal S) (n : nat) (P : Type) (SZ : nat) (v : P) (pt : nat -> vec S n),
    (forall i j, i < j -> veq L (pt i) (pt j) = false) ->
    (forall i j d, i < j -> sltb (vnth s0 (d mod n) (pt j)) (vnth s0 (d mod n) (pt i)) = false) ->
    forall N,
      let hist := map (fun i => OpInsert (pt i) v) (seq 0 N) in
      let t := run L SZ hist in
      length (accepted L SZ hist) = N /\
      snd (destroy_c (root t)) = N /\
      snd (insertHelper_c L SZ (root t) (pt N) v 0) = N + 1 /\
      snd (searchHelper_c L SZ (root t) (pt N) 0) = N + 1.
Proof.
  intros S L n P SZ v pt Heq Hlt N hist t. destruct (sorted_run L n SZ v pt Heq Hlt N) as [E A].
  unfold t, hist. fold (sorted_hist n v pt N). rewrite A, E. pose proof (sorted_beyond L n v pt Heq Hlt N) as B.
  assert (Hl : length (sorted_items n v pt N) = N) by (unfold sorted_items; rewrite map_length, seq_length; reflexivity).
  split; [rewrite rev_length; exact Hl|]. split; [rewrite destroy_c_height, chain_height; exact Hl|]. split.
  - rewrite insert_chain by exact B. cbn. lia.
  - rewrite search_chain by exact B. cbn. lia.
Qed.
Print Assumptions C64_sorted_input.

(** the subtree at a path ([false]: left, [true]: right) *)
Fixpoint subtree {S : Scalar} {n : nat} {P : Type} (t : @tree S n P) (pth : list bool) : option (@tree S n P) :=
  match pth with
  | [] => Some t
  | b :: pth' => match t with Leaf => None | Node _ _ l r => subtree (if b then r else l) pth' end
  end.

(** The number of calls is exact: it is the level at which an accepted point is hung
    into the tree (the root is level 1) or at which an equal point is found.  A search
    makes as many calls as an insertion of the same point. *)
Theorem C64_calls_exact :
  forall (S : Scalar) (L : Linal S) (n : nat) (P : Type) (SZ : nat) (t : @tree S n P) (p : vec S n) (v : P),
    exists pth, let '((t', b), c) := insertHelper_c L SZ t p v 0 in
      c = Datatypes.S (length pth) /\ searchHelper_c L SZ t p 0 = (negb b, c) /\
      match b with
      | true => subtree t pth = Some Leaf /\ subtree t' pth = Some (Node p v Leaf Leaf)
      | false => t' = t /\ exists q w l r, subtree t pth = Some (Node q w l r) /\ veq L q p = true
      end.
Proof.
  intros S L n P SZ t p v. generalize 0. induction t as [|q w l IHl r IHr]; intros d; [exists []; cbn; auto|]. cbn [insertHelper_c searchHelper_c].
  destruct (veq L q p) eqn:E; [exists []; cbn; repeat split; auto; exists q, w, l, r; auto|]. destruct (sltb _ _).
  - destruct (IHl (next_depth SZ d)) as (pth & H). exists (false :: pth). destruct (insertHelper_c L SZ l p v _) as [[l' b] c]. destruct H as (-> & -> & H).
    split; [reflexivity|]. split; [reflexivity|]. destruct b; [exact H|]. destruct H as (-> & H). split; [reflexivity|exact H].
  - destruct (IHr (next_depth SZ d)) as (pth & H). exists (true :: pth). destruct (insertHelper_c L SZ r p v _) as [[r' b] c]. destruct H as (-> & -> & H).
    split; [reflexivity|]. split; [reflexivity|]. destruct b; [exact H|]. destruct H as (-> & H). split; [reflexivity|exact H].
Qed.
Print Assumptions C64_calls_exact.

(** The tree is searched by one axis per level, in turn (the level is counted modulo
    [SZ], the number of values of its type): left of a node are exactly the points with
    a smaller coordinate. *)
Lemma subtree_tpts {S : Scalar} {n : nat} {P : Type} (t : @tree S n P) : forall pth p v l r, subtree t pth = Some (Node p v l r) -> In p (tpts n t).
Proof.
  induction t as [|q w l IHl r IHr]; intros [|b pth] p v l' r' H; try discriminate.
  - cbn in H. assert (E : q = p) by congruence. left. exact E.
  - rewrite tpts_node. right. apply in_or_app. cbn [subtree] in H. destruct b; [right; eapply IHr; eassumption|left; eapply IHl; eassumption].
Qed.

Theorem C64_axes :
  forall (S : Scalar) (L : Linal S) (n : nat) (P : Type) (SZ : nat) (hist : list (op S n P)),
    let t := root (run L SZ hist) in
    forall pth p v l r, subtree t pth = Some (Node p v l r) ->
    forall (right : bool) pth' q w l' r', subtree t (pth ++ right :: pth') = Some (Node q w l' r') ->
      let axis := (length pth mod SZ) mod n in
      sltb (vnth s0 axis q) (vnth s0 axis p) = negb right.
Proof.
  intros S L n P SZ hist t pth p v l r Hp right pth' q w l' r' Hq axis. pose proof (ia_ord L n SZ hist (inva_run L n SZ hist)) as Ho. fold t in Ho.
  assert (G : forall pth (t : @tree S n P) k, ordered n SZ (k mod SZ) t -> subtree t pth = Some (Node p v l r) ->
    subtree t (pth ++ right :: pth') = Some (Node q w l' r') ->
    sltb (vnth s0 (((k + length pth) mod SZ) mod n) q) (vnth s0 (((k + length pth) mod SZ) mod n) p) = negb right).
  { clear. induction pth as [|b pth IH]; intros t k Ho Hp Hq; destruct t as [|x y a c]; try discriminate.
    - cbn in Hp. assert (E : x = p /\ y = v /\ a = l /\ c = r) by (repeat split; congruence). destruct E as (-> & -> & -> & ->).
      cbn [length]. rewrite Nat.add_0_r. destruct Ho as (Hl & Hr & _). cbn [app subtree] in Hq. destruct right; [apply Hr|apply Hl]; eapply subtree_tpts; exact Hq.
    - destruct Ho as (_ & _ & Hl & Hr). assert (En : next_depth SZ (k mod SZ) = (Datatypes.S k) mod SZ).
      { unfold next_depth. destruct SZ as [|sz]; [cbn; lia|]. rewrite Nat.add_mod_idemp_l by lia. f_equal. lia. }
      rewrite En in Hl, Hr. cbn [length]. replace (k + Datatypes.S (length pth)) with (Datatypes.S k + length pth) by lia.
      cbn [app subtree] in Hp, Hq. destruct b; [apply (IH c); assumption|apply (IH a); assumption]. }
  apply (G pth t 0); try assumption. replace (0 mod SZ) with 0; [exact Ho|]. destruct SZ; [reflexivity|symmetry; apply Nat.mod_0_l; discriminate].
Qed.
Print Assumptions C64_axes.

(** So the depth is not logarithmic in the number of points, nor bounded by any
    other function that is smaller than the number somewhere: for every [N] there
    are [N] points with real coordinates (in every dimension) for which the
    destructor nests [N] calls and [nearest] nests [N + 1]. *)
Theorem C64_logarithmic_refuted :
  forall (M : R) (n SZ N : nat), n <> 0 ->
    let L := raw_linal (RS M) 0%R in
    exists hist : list (op (RS M) n unit),
      distinct_count (points hist) N /\ length (accepted L SZ hist) = N /\
      snd (destroy_c (root (run L SZ hist))) = N /\
      (N <> 0 -> exists q b c, nearest_c SZ (run L SZ hist) q = Ok (b, c) /\ nesting c = N + 1).
Proof.
  intros M n SZ N Hn L. set (pt := fun i => vconst n (INR i) : vec (RS M) n).
  assert (Hnth : forall d i, vnth (@s0 (RS M)) (d mod n) (pt i) = INR i).
  { intros d i. unfold pt. apply (vnth_vconst (A := R)). apply Nat.mod_upper_bound. exact Hn. }
  assert (Hinj : forall i j, pt i = pt j -> i = j).
  { intros i j E. apply INR_eq. rewrite <- (Hnth 0 i), <- (Hnth 0 j). now rewrite E. }
  assert (Heq : forall i j, i < j -> veq L (pt i) (pt j) = false).
  { intros i j Hij. destruct (veq L (pt i) (pt j)) eqn:E; [|reflexivity]. apply (raw_linal_exact M 0%R) in E. apply Hinj in E. lia. }
  assert (Hlt : forall i j d, i < j -> sltb (vnth (@s0 (RS M)) (d mod n) (pt j)) (vnth (@s0 (RS M)) (d mod n) (pt i)) = false).
  { intros i j d Hij. rewrite !Hnth. cbn. apply Rltb_false. apply le_INR. lia. }
  exists (map (fun i => OpInsert (pt i) tt) (seq 0 N)).
  destruct (C64_sorted_input (RS M) L n unit SZ tt pt Heq Hlt N) as (H1 & H2 & _). split; [|split; [exact H1|split; [exact H2|]]].
  - exists (map pt (seq 0 N)). split; [|split].
    + apply FinFun.Injective_map_NoDup; [exact Hinj|apply seq_NoDup].
    + intros x. unfold points. assert (E : inserted (map (fun i => OpInsert (pt i) tt) (seq 0 N)) = map (fun i => (pt i, tt)) (seq 0 N)).
      { generalize (seq 0 N). induction l as [|i l IH]; [reflexivity|]. cbn. now rewrite IH. }
      rewrite E, map_map. reflexivity.
    + rewrite map_length. apply seq_length.
  - intros HN. exists (pt N). destruct (sorted_run L n SZ tt pt Heq Hlt N) as [E _]. unfold sorted_hist in E.
    unfold nearest_c. rewrite E. destruct N as [|N]; [lia|]. cbn [sorted_items seq map chain].
    pose proof (nearest_chain n SZ (sorted_items n tt pt (Datatypes.S N)) (pt (Datatypes.S N))) as K.
    assert (Hs : forall q v, In (q, v) (sorted_items n tt pt (Datatypes.S N)) -> forall d,
      sltb (ssub (vnth (@s0 (RS M)) (d mod n) (pt (Datatypes.S N))) (vnth (@s0 (RS M)) (d mod n) q)) s0 = false).
    { intros q [] Hin d. apply in_map_iff in Hin as (i & [= <-] & Hi). apply in_seq in Hi. rewrite !Hnth. cbn [sltb ssub s0 RS].
      apply Rltb_false. assert (INR i <= INR (Datatypes.S N))%R by (apply le_INR; lia). lra. }
    specialize (K Hs [] (mkBest [] (pt 0) tt (kd_distance (pt (Datatypes.S N)) (pt 0))) 0). cbn [sorted_items seq map chain] in K.
    destruct (nearestHelper_c n SZ _ _ (pt (Datatypes.S N)) _ 0) as [b c]. exists b, (mkCost (calls c) (nesting c) (1 + distances c)).
    split; [reflexivity|]. cbn in *. rewrite K. unfold sorted_items. rewrite map_length, seq_length. lia.
Qed.
Print Assumptions C64_logarithmic_refuted.

(** non-vacuity: ascending and mixed input with integer coordinates *)
Definition kc_L : Linal ZS := raw_linal ZS 0%Z.
Definition kc_pt (i : nat) : vec ZS 2 := mk2 (Z.of_nat i) (Z.of_nat i).
Example C64_example_sorted :
  (forall i j, i < j -> veq kc_L (kc_pt i) (kc_pt j) = false) /\
  (forall i j d, i < j -> sltb (vnth s0 (d mod 2) (kc_pt j)) (vnth s0 (d mod 2) (kc_pt i)) = false).
Proof.
  split.
  - intros i j H. destruct (veq kc_L (kc_pt i) (kc_pt j)) eqn:E; [|reflexivity]. apply (raw_linal_Z_exact 0%Z) in E. injection E as E _. lia.
  - intros i j d H. assert (Hd : d mod 2 < 2) by (apply Nat.mod_upper_bound; lia). destruct (d mod 2) as [|[|?]]; [| |lia]; cbn; apply Z.ltb_ge; lia.
Qed.
Example C64_example_mixed :
  let hist := map (fun '(x, y) => OpInsert (mk2 x y : vec ZS 2) tt) [(4, 4); (2, 6); (6, 2); (1, 1); (3, 7); (5, 1); (7, 3); (4, 4)]%Z in
  length (accepted kc_L 256 hist) = 7 /\ snd (destroy_c (root (run kc_L 256 hist))) = 3 /\
  snd (searchHelper_c kc_L 256 (root (run kc_L 256 hist)) (mk2 9 9)%Z 0) = 4 /\
  (let t := run kc_L 256 (map (fun i => OpInsert (kc_pt i) tt) (seq 0 7)) in snd (destroy_c (root t)) = 7 /\ snd (searchHelper_c kc_L 256 (root t) (kc_pt 9) 0) = 8).
Proof. vm_compute. repeat split. Qed.

Example C64_example_axes :
  let t := root (run kc_L 256 (map (fun '(x, y) => OpInsert (mk2 x y : vec ZS 2) tt) [(4, 4); (2, 6); (6, 2); (1, 1); (3, 7)]%Z)) in
  match subtree t [false], subtree t [false; true] with Some (Node p _ _ _), Some (Node q _ _ _) => p = mk2 2%Z 6%Z /\ q = mk2 3%Z 7%Z | _, _ => False end.
Proof. vm_compute. repeat split. Qed.
