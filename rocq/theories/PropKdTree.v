(** * Property theorems: KdTree (C01, C02, C03, C04, C41, C42, C44) *)

From Coq Require Import List Arith Bool Lia Reals Lra ZArith.
From Verif Require Import Scalar Linal Result ModelKdTree SpecKdTree SpecIEEE SpecReal VecR ProofKdTree ProofKdTreeUpdate ProofIEEE ProofKdTreeIEEE.
From Flocq Require Import Core.Zaux Core.Raux IEEE754.BinarySingleNaN.
Import ListNotations.

(** ** C01: the tree is a first-wins map, for every scalar type, dimension,
    payload type, size type and history.  [G] is a set of points on which
    [operator==] decides equality (all points, if it is exact). *)
Theorem C01_kdtree_first_wins_map :
  forall (S : Scalar) (L : Linal S) (n : nat) (P : Type) (SZ : nat) (G : vec S n -> Prop),
    SZ <> 0 -> veq_on L G ->
    forall (hist : list (op S n P)) (o : op S n P),
      (forall o', In o' (o :: hist) -> forall p, In p (op_points o') -> G p) ->
      kd_spec SZ hist o (snd (step L SZ (run L SZ hist) o)).
Proof. exact kdtree_first_wins_map. Qed.
Print Assumptions C01_kdtree_first_wins_map.

(** the hypotheses are met by a history with a duplicate and an 8-bit size type *)
Definition ex_L : Linal ZS := raw_linal ZS 0%Z.
Definition pt (x y : Z) : vec ZS 2 := mk2 x y.
Definition ex_hist : list (op ZS 2 nat) :=
  [OpInsert (pt 5 4) 0; OpInsert (pt 2 7) 1; OpSearch (pt 2 7); OpInsert (pt 5 4) 2;
   OpInsert (pt 9 6) 3; OpInsert (pt 4 2) 4; OpInsert (pt 5 3) 5].
Example C01_example_hyps :
  256 <> 0 /\ veq_on ex_L (fun _ : vec ZS 2 => True) /\
  snd (step ex_L 256 (run ex_L 256 ex_hist) OpSize) = RNat 5 /\
  snd (step ex_L 256 (run ex_L 256 ex_hist) (OpInsert (pt 5 3) 9)) = RBool false /\
  snd (step ex_L 256 (run ex_L 256 ex_hist) (OpInsert (pt 5 2) 9)) = RBool true /\
  snd (step ex_L 256 (run ex_L 256 ex_hist) (OpSearch (pt 9 6))) = RBool true /\
  snd (step ex_L 256 (run ex_L 256 ex_hist) (OpSearch (pt 9 7))) = RBool false /\
  snd (step ex_L 256 (run ex_L 256 ex_hist) (OpNearest (pt 5 4))) = RFound (pt 5 4) 0.
Proof.
  split; [discriminate|]. split; [|vm_compute; repeat split].
  intros p q _ _. apply (raw_linal_Z_exact 0%Z).
Qed.

(** If fewer distinct points than values of the size type were inserted,
    [size] is their number and [empty] tells whether there are none. *)
Theorem C01_size_no_wrap :
  forall (S : Scalar) (L : Linal S) (n : nat) (P : Type) (SZ : nat) (G : vec S n -> Prop),
    veq_on L G ->
    forall (hist : list (op S n P)) (k : nat),
      (forall o', In o' hist -> forall p, In p (op_points o') -> G p) ->
      distinct_count (points hist) k -> k < SZ ->
      size (run L SZ hist) = k /\ (empty (run L SZ hist) = true <-> points hist = []).
Proof. exact kdtree_size_no_wrap. Qed.
Print Assumptions C01_size_no_wrap.

Example C01_size_no_wrap_example : distinct_count (points ex_hist) 5 /\ 5 < 256.
Proof.
  split; [|lia].
  exists [pt 5 4; pt 2 7; pt 9 6; pt 4 2; pt 5 3]. split; [|split; [|reflexivity]].
  - repeat constructor; cbn; intuition discriminate.
  - cbn; intuition.
Qed.

(** The restriction is needed: with a size type of [SZ] values, after [SZ]
    distinct points [size] is 0 and [empty] is true although the tree holds
    points and [nearest] succeeds.  Shown for an 8-bit size type. *)
Theorem C01_size_wrap_refuted :
  exists hist : list (op ZS 1 unit),
    distinct_count (points hist) 256 /\
    size (run ex_L 256 hist) = 0 /\ empty (run ex_L 256 hist) = true /\
    exists b, nearest 256 (run ex_L 256 hist) (0%Z, tt) = Ok b.
Proof. exact kdtree_size_wrap. Qed.
Print Assumptions C01_size_wrap_refuted.

(** ** C02: nearest neighbour over the reals, all dimensions *)
Theorem C02_nearest_is_nearest :
  forall (M : R) (L : Linal (RS M)) (n : nat) (P : Type) (SZ : nat) (G : vec R n -> Prop),
    SZ <> 0 -> veq_on L (G : vec (RS M) n -> Prop) ->
    forall (hist : list (op (RS M) n P)) (q : vec R n),
      (forall o', In o' hist -> forall p, In p (op_points o') -> G p) ->
      (points hist = [] -> nearest SZ (run L SZ hist) q = Throw) /\
      (points hist <> [] ->
       exists b, nearest SZ (run L SZ hist) q = Ok b /\
         first_payload (inserted hist) (b_point b) (b_payload b) /\
         forall x, In x (points hist) -> (rdist (b_point b) q <= rdist x q)%R).
Proof. exact kdtree_nearest_R. Qed.
Print Assumptions C02_nearest_is_nearest.

Definition rins (x y : R) (v : nat) : op (RS 1) 2 nat := @OpInsert (RS 1) 2 nat (mk2 x y) v.
Example C02_example :
  let L := raw_linal (RS 1) 0%R in
  let hist : list (op (RS 1) 2 nat) :=
    [rins 0 0 7; rins 1 2 8; rins (-3) 5 9] in
  256 <> 0 /\ veq_on L (fun _ : vec (RS 1) 2 => True) /\ points hist <> [].
Proof.
  split; [discriminate|]. split; [|discriminate].
  intros p q _ _. apply (raw_linal_exact 1 0%R).
Qed.

(** ** C03: nearest neighbour in floating point, for every IEEE-754 binary
    format with more than two bits of precision ([float]: 24, [double]: 53).
    Rounding never makes the pruning test skip a better candidate: for all finite
    points and queries, whatever [operator==] is and even if distances underflow
    or overflow to infinity, the computed distance of the result is at most the
    computed distance of every stored point ([Bleb] also says that neither is NaN). *)
Theorem C03_nearest_ieee :
  forall (prec emax : Z) (Hp : FLX.Prec_gt_0 prec) (He : Prec_lt_emax prec emax), (2 < prec)%Z ->
  forall f g h pi,
    let S := IEEE prec emax Hp He f g h pi in
    forall (L : Linal S) (n : nat) (P : Type) (SZ : nat),
      n <> 0 ->
      forall (hist : list (op S n P)) (q : vec S n),
        (forall p, In p (points hist) -> finite_pt p) -> finite_pt q ->
        (accepted L SZ hist = [] -> nearest SZ (run L SZ hist) q = Throw) /\
        (accepted L SZ hist <> [] ->
         exists b, nearest SZ (run L SZ hist) q = Ok b /\
           In (b_point b, b_payload b) (accepted L SZ hist) /\
           forall x w, In (x, w) (accepted L SZ hist) -> Bleb (cdist (b_point b) q) (cdist x q) = true).
Proof. exact (fun p e Hp He H2 f g h pi L n P SZ Hn => nearest_bf H2 f g h pi L n SZ Hn). Qed.
Print Assumptions C03_nearest_ieee.

(** If [operator==] only equates points whose coordinates are equal as floating
    point numbers (so 0 and -0 may be equal), the result is nearest among all
    inserted points. *)
Theorem C03_nearest_ieee_all_inserted :
  forall (prec emax : Z) (Hp : FLX.Prec_gt_0 prec) (He : Prec_lt_emax prec emax), (2 < prec)%Z ->
  forall f g h pi,
    let S := IEEE prec emax Hp He f g h pi in
    forall (L : Linal S) (n : nat) (P : Type) (SZ : nat),
      n <> 0 ->
      forall (hist : list (op S n P)) (q : vec S n),
        (forall p p' : vec S n, veq L p p' = true -> forall i, i < n -> seqb (vnth s0 i p) (vnth s0 i p') = true) ->
        (forall p, In p (points hist) -> finite_pt p) -> finite_pt q ->
        points hist <> [] ->
        exists b, nearest SZ (run L SZ hist) q = Ok b /\
          In (b_point b, b_payload b) (inserted hist) /\
          forall x, In x (points hist) -> Bleb (cdist (b_point b) q) (cdist x q) = true.
Proof. exact (fun p e Hp He H2 f g h pi L n P SZ Hn => nearest_bf_exact H2 f g h pi L n SZ Hn). Qed.
Print Assumptions C03_nearest_ieee_all_inserted.

(** Points with both zeros, a distance that overflows and one that underflows;
    the raw comparison equates 0 and -0. *)
Definition b_hist f g h pi : list (op (B64 f g h pi) 2 nat) :=
  [@OpInsert (B64 f g h pi) 2 nat (mk2 (b64_pow 1 1000) (b64_ofZ 3)) 1;
   @OpInsert (B64 f g h pi) 2 nat (mk2 (B754_zero false) (b64_pow 1 (-700))) 2;
   @OpInsert (B64 f g h pi) 2 nat (mk2 (B754_zero true) (b64_pow 1 (-700))) 3;
   @OpInsert (B64 f g h pi) 2 nat (mk2 (b64_ofZ 5) (B754_zero true)) 4].
Example C03_example : forall f g h pi,
  let S := B64 f g h pi in
  let L := raw_linal S (b64_ofZ 0) in
  2 <> 0 /\
  (forall p p' : vec S 2, veq L p p' = true -> forall i, i < 2 -> seqb (vnth s0 i p) (vnth s0 i p') = true) /\
  (forall p, In p (points (b_hist f g h pi)) -> finite_pt p) /\
  map snd (accepted L 256 (b_hist f g h pi)) = [4; 2; 1] /\
  match nearest 256 (run L 256 (b_hist f g h pi)) (mk2 (b64_ofZ 1) (b64_ofZ 0)) with Ok b => b_payload b = 2 | _ => False end.
Proof.
  intros f g h pi S L. split; [discriminate|]. split; [|split; [|split]].
  - intros p p' H i Hi. cbn in H. apply andb_prop in H as [H1 H]. apply andb_prop in H as [H2 _].
    destruct i as [|[|i]]; [exact H1|exact H2|lia].
  - intros p Hp i Hi. cbn in Hp. decompose [or] Hp; try contradiction; subst p; destruct i as [|[|i]]; try lia; reflexivity.
  - vm_compute. reflexivity.
  - vm_compute. reflexivity.
Qed.

(** Finiteness is needed: once the first inserted point has a NaN coordinate,
    every query after every further history returns that point. *)
Theorem C03_nan_root_refuted :
  forall (prec emax : Z) (Hp : FLX.Prec_gt_0 prec) (He : Prec_lt_emax prec emax) f g h pi,
    let S := IEEE prec emax Hp He f g h pi in
    forall (L : Linal S) (n : nat) (P : Type) (SZ : nat) (p : vec S n) (v : P) (hist : list (op S n P)) (q : vec S n) (i : nat),
      i < n -> vnth (B754_zero false) i p = (B754_nan : binary_float prec emax) ->
      exists b, nearest SZ (run L SZ (OpInsert p v :: hist)) q = Ok b /\ b_point b = p /\ b_payload b = v.
Proof. intros prec emax Hp He f g h pi S L n P SZ p v hist q i Hi. apply (nearest_nan_first f g h pi L n SZ); [lia|exact Hi]. Qed.
Print Assumptions C03_nan_root_refuted.

Example C03_nan_example : forall f g h pi,
  let S := B64 f g h pi in
  let L := raw_linal S (b64_ofZ 0) in
  let p : vec S 2 := mk2 (b64_ofZ 1) B754_nan in
  vnth (B754_zero false) 1 p = (B754_nan : b64) /\
  match nearest 256 (run L 256 (OpInsert p 0 :: b_hist f g h pi)) (mk2 (b64_ofZ 5) (b64_ofZ 0)) with Ok b => b_payload b = 0 | _ => False end.
Proof. intros f g h pi S L p. split; [reflexivity|]. vm_compute. reflexivity. Qed.

(** A query at a stored point returns that point (exact arithmetic). *)
Theorem C42_nearest_of_stored_point :
  forall (M : R) (L : Linal (RS M)) (n : nat) (P : Type) (SZ : nat) (G : vec R n -> Prop),
    SZ <> 0 -> veq_on L (G : vec (RS M) n -> Prop) ->
    forall (hist : list (op (RS M) n P)) (q : vec R n),
      (forall o', In o' hist -> forall p, In p (op_points o') -> G p) ->
      In q (points hist) ->
      exists b, nearest SZ (run L SZ hist) q = Ok b /\ b_point b = q.
Proof. exact kdtree_nearest_stored. Qed.
Print Assumptions C42_nearest_of_stored_point.

Example C42_example :
  let hist : list (op (RS 1) 2 nat) :=
    [rins 0 0 7; rins 1 2 8; rins (-3) 5 9] in
  In (mk2 1 2)%R (points hist).
Proof. cbn; auto. Qed.

(** With doubles this fails: the squared distance underflows, and a query at a
    stored point may return a different stored point. *)
Theorem C42_nearest_of_stored_point_b64_refuted :
  forall f g h pi,
    let S := B64 f g h pi in
    let L := raw_linal S (b64_ofZ 0) in
    exists (hist : list (op S 1 unit)) (q : vec S 1) b,
      In q (points hist) /\ search L 256 (run L 256 hist) q = true /\
      nearest 256 (run L 256 hist) q = Ok b /\ veq L (b_point b) q = false.
Proof. exact kdtree_nearest_stored_b64. Qed.
Print Assumptions C42_nearest_of_stored_point_b64_refuted.

(** Floating point: the property holds if every stored point that differs from
    [q] differs from it by at least [2^k] on some axis, where [2^(2k)] is not
    below the smallest positive number (for double: k = -537).  The case
    refuted above is what is missing. *)
Theorem C42_nearest_of_stored_point_ieee_partial :
  forall (prec emax : Z) (Hp : FLX.Prec_gt_0 prec) (He : Prec_lt_emax prec emax), (2 < prec)%Z ->
  forall f g h pi,
    let S := IEEE prec emax Hp He f g h pi in
    forall (L : Linal S) (n : nat) (P : Type) (SZ : nat),
      n <> 0 ->
      (forall p p' : vec S n, veq L p p' = true -> forall i, i < n -> @seqb S (vnth s0 i p) (vnth s0 i p') = true) ->
      forall (hist : list (op S n P)) (q : vec S n) (k : Z),
        (forall p, In p (points hist) -> finite_pt p) -> In q (points hist) -> (3 - emax - prec <= 2 * k)%Z ->
        (forall p, In p (points hist) ->
           (forall i, i < n -> fval i p = fval i q) \/
           (exists i, i < n /\ (bpow radix2 k <= Rabs (fval i p - fval i q))%R)) ->
        exists b, nearest SZ (run L SZ hist) q = Ok b /\ In (b_point b, b_payload b) (inserted hist) /\
          forall i, i < n -> fval i (b_point b) = fval i q.
Proof. exact (fun p e Hp He H2 f g h pi L n P SZ Hn Heq hist q k => nearest_bf_stored H2 f g h pi L n SZ Hn hist q k Heq). Qed.
Print Assumptions C42_nearest_of_stored_point_ieee_partial.

(** two points of doubles at distance 1 *)
Example C42_ieee_example : forall f g h pi,
  let S := B64 f g h pi in
  let z : vec S 1 := (B754_zero false, tt) in
  let o : vec S 1 := (b64_pow 1 0, tt) in
  (3 - 1024 - 53 <= 2 * 0)%Z /\ finite_pt z /\ finite_pt o /\ (bpow radix2 0 <= Rabs (fval 0 z - fval 0 o))%R.
Proof.
  intros f g h pi S z o. split; [lia|]. destruct (@one_spec 53 1024 prec53 prec_emax64) as (F & E).
  split; [intros [|i] Hi; [reflexivity|lia]|]. split; [intros [|i] Hi; [exact F|lia]|].
  change (fval 0 o) with (B2R (ieee_pow 53 1024 prec53 prec_emax64 1 0)). rewrite E. change (fval 0 z) with 0%R.
  rewrite Rminus_0_l, Rabs_Ropp, Rabs_R1. cbn. lra.
Qed.

(** ** C04: with a tolerance-based [operator==] the guarantees fail: a point
    equal to a stored one may not be found, and two equal points may both be
    stored. *)
Theorem C04_tolerant_equality_refuted :
  forall f g h pi,
    let S := B64 f g h pi in
    let L := tolvec_linal S (b64_pow 1 (-30)) in
    exists (hist : list (op S 2 unit)) (p q : vec S 2),
      In p (points hist) /\ veq L p q = true /\
      search L 256 (run L 256 hist) q = false /\
      snd (step L 256 (run L 256 hist) (OpInsert q tt)) = RBool true.
Proof. exact kdtree_tolerant_eq. Qed.
Print Assumptions C04_tolerant_equality_refuted.

(** The part that does hold with a tolerance: if stored and queried points that
    compare equal are equal (points pairwise further apart than the tolerance),
    everything of C01 holds; here the instance for the tolerance-based
    comparison over the reals. *)
Theorem C04_separated_points_partial :
  forall (M e : R) (n : nat) (P : Type) (SZ : nat) (G : vec R n -> Prop),
    (0 <= e)%R -> SZ <> 0 ->
    (forall p q, G p -> G q -> p <> q -> exists i, i < n /\ (e < Rabs (vnth 0%R i p - vnth 0%R i q))%R) ->
    forall (hist : list (op (RS M) n P)) (o : op (RS M) n P),
      (forall o', In o' (o :: hist) -> forall p, In p (op_points o') -> G p) ->
      kd_spec SZ hist o (snd (step (tolvec_linal (RS M) e) SZ (run (tolvec_linal (RS M) e) SZ hist) o)).
Proof. exact kdtree_separated. Qed.
Print Assumptions C04_separated_points_partial.

Example C04_separated_example :
  let G : vec R 1 -> Prop := fun p => p = (0%R, tt) \/ p = (5%R, tt) in
  forall p q, G p -> G q -> p <> q -> exists i, i < 1 /\ (1 < Rabs (vnth 0%R i p - vnth 0%R i q))%R.
Proof.
  cbn; intros p q [-> | ->] [-> | ->] H; try congruence; exists 0; (split; [lia|]); cbn.
  - rewrite Rabs_left; lra.
  - rewrite Rabs_right; lra.
Qed.

(** ** C41: moved-from trees.  The new tree has all observations of the old
    one; the moved-from tree, however, reports the old size, so [empty] is false
    although [nearest] throws. *)
Theorem C41_move_preserves :
  forall (S : Scalar) (L : Linal S) (n : nat) (P : Type) (SZ : nat) (t : kdtree S n P) (o : op S n P),
    snd (step L SZ (fst (move_construct t)) o) = snd (step L SZ t o).
Proof. exact kdtree_move_preserves. Qed.
Print Assumptions C41_move_preserves.

Theorem C41_moved_from_refuted :
  forall (S : Scalar) (L : Linal S) (n : nat) (P : Type) (SZ : nat) (G : vec S n -> Prop),
    veq_on L G ->
    forall (hist : list (op S n P)) (k : nat) (q : vec S n),
      (forall o', In o' hist -> forall p, In p (op_points o') -> G p) ->
      distinct_count (points hist) k -> 0 < k < SZ ->
      let moved := snd (move_construct (run L SZ hist)) in
      empty moved = false /\ size moved = k /\ nearest SZ moved q = Throw /\ search L SZ moved q = false.
Proof. exact kdtree_moved_from. Qed.
Print Assumptions C41_moved_from_refuted.

(** Move assignment: whatever the target held before, it then has the
    observations of the source.  A moved-from tree that is used again counts the
    points it no longer holds: after the insertion of a single point its size is
    one more than before the move. *)
Theorem C41_move_assign :
  forall (S : Scalar) (L : Linal S) (n : nat) (P : Type) (SZ : nat) (t0 t : kdtree S n P) (o : op S n P),
    snd (step L SZ (fst (move_assign t0 t)) o) = snd (step L SZ t o) /\
    snd (step L SZ (fst (move_assign t0 kd_empty)) o) = snd (step L SZ (run L SZ []) o).
Proof. intros S L n P SZ t0 [r k] o. split; reflexivity. Qed.
Print Assumptions C41_move_assign.

Theorem C41_reuse_refuted :
  forall (S : Scalar) (L : Linal S) (n : nat) (P : Type) (SZ : nat) (G : vec S n -> Prop),
    veq_on L G ->
    forall (hist : list (op S n P)) (k : nat) (t0 : kdtree S n P) (p : vec S n) (v : P),
      (forall o', In o' hist -> forall p, In p (op_points o') -> G p) -> G p ->
      distinct_count (points hist) k -> 0 < k -> k + 1 < SZ ->
      forall moved, moved = snd (move_construct (run L SZ hist)) \/ moved = snd (move_assign t0 (run L SZ hist)) ->
      let t := fst (insert L SZ moved p v) in
      size t = k + 1 /\ (forall q, G q -> (search L SZ t q = true <-> q = p)) /\
      (forall q, exists b, nearest SZ t q = Ok b /\ b_point b = p).
Proof.
  intros S L n P SZ G HG hist k t0 p v H Hp Hk H0 Hlt moved Hm t.
  destruct (kdtree_size_no_wrap S L n P SZ G HG hist k H Hk ltac:(lia)) as [Hs _]. unfold size in Hs.
  assert (E : t = mkKd (Node p v Leaf Leaf) (k + 1)).
  { unfold t. destruct Hm as [Hm|Hm]; rewrite Hm; unfold move_construct, move_assign, insert; cbn; rewrite Hs; f_equal; apply Nat.mod_small; lia. }
  rewrite E. split; [reflexivity|]. split.
  - intros q Hq. pose proof (HG p q Hp Hq) as Hv. unfold search. cbn. destruct (veq L p q).
    + destruct Hv as [Hv _]. split; [intros _; symmetry; apply Hv|]; reflexivity.
    + split; [repeat match goal with |- context [if ?c then _ else _] => destruct c end; discriminate|]. intros Eq. destruct Hv as [_ Hv]. discriminate (Hv (eq_sym Eq)).
  - intros q. unfold nearest. cbn. eexists. split; [reflexivity|].
    repeat match goal with |- context [if ?c then _ else _] => destruct c end; reflexivity.
Qed.
Print Assumptions C41_reuse_refuted.

(** ** C44: a write through the payload reference returned by nearest changes
    the payload of exactly that point and no other observation *)
Theorem C44_payload_write :
  forall (S : Scalar) (L : Linal S) (n : nat) (P : Type) (SZ : nat) (G : vec S n -> Prop),
    SZ <> 0 -> veq_on L G ->
    forall (hist : list (op S n P)) (q : vec S n) (b : @best S n P) (f : P -> P),
      (forall o', In o' hist -> forall p, In p (op_points o') -> G p) ->
      nearest SZ (run L SZ hist) q = Ok b ->
      let t := run L SZ hist in
      let t' := mkKd (update_payload f (b_path b) (root t)) (msize t) in
      (forall q', exists b0 b1, nearest SZ t q' = Ok b0 /\ nearest SZ t' q' = Ok b1 /\
         b_point b1 = b_point b0 /\
         (b_point b0 = b_point b -> b_payload b1 = f (b_payload b)) /\
         (b_point b0 <> b_point b -> b_payload b1 = b_payload b0)) /\
      (forall p, search L SZ t' p = search L SZ t p) /\
      (forall p v, snd (insert L SZ t' p v) = snd (insert L SZ t p v)) /\
      size t' = size t /\ empty t' = empty t.
Proof. exact kdtree_payload_write. Qed.
Print Assumptions C44_payload_write.

Example C44_example :
  exists b, nearest 256 (run ex_L 256 ex_hist) (pt 9 7) = Ok b /\ b_point b = pt 9 6 /\ b_payload b = 3.
Proof. eexists. vm_compute. repeat split. Qed.
