(** * Property theorems: intervals and boxes in floating point (C05, C55, C56) *)

From Coq Require Import List Arith Bool Lia ZArith Reals Lra.
From Flocq Require Import Core IEEE754.BinarySingleNaN.
From Verif Require Import Scalar Linal Result ModelBox SpecBox SpecIEEE ProofRound ProofIEEE ProofBoxIEEE.
Import ListNotations.
Local Open Scope R_scope.

(** ** C05 in floating point: interval intersection in every IEEE-754 binary
    format; the result endpoints are given endpoints, nothing is rounded. *)
Theorem C05_interval_ieee :
  forall (prec emax : Z) (Hp : Prec_gt_0 prec) (He : Prec_lt_emax prec emax) f g h pi,
    let S := IEEE prec emax Hp He f g h pi in
    forall (L : Linal S) (t : R), LinalF L t ->
    forall (a b c d : binary_float prec emax) (out : interval S),
      is_finite a = true -> is_finite b = true -> is_finite c = true -> is_finite d = true ->
      B2R a <= B2R b -> B2R c <= B2R d ->
      let r := intersect_interval L (mkInterval (a : S) b) (mkInterval (c : S) d) out in
      let lo := B2R (i_start (snd r) : binary_float prec emax) in
      let hi := B2R (i_end (snd r) : binary_float prec emax) in
      ((fst r = 0%nat /\ snd r = out /\ (B2R b < B2R c \/ B2R d < B2R a)) \/
       (fst r = 1%nat /\ i_end (snd r) = i_end out /\
        ((Rabs (B2R b - B2R c) <= t /\ i_start (snd r) = b) \/ (Rabs (B2R a - B2R d) <= t /\ i_start (snd r) = a))) \/
       (fst r = 2%nat /\ B2R c < B2R b /\ B2R a < B2R d /\
        (i_start (snd r) = a \/ i_start (snd r) = c) /\ (i_end (snd r) = b \/ i_end (snd r) = d) /\
        Rmax (B2R a) (B2R c) - t <= lo <= Rmax (B2R a) (B2R c) /\
        Rmin (B2R b) (B2R d) <= hi <= Rmin (B2R b) (B2R d) + t /\ lo <= hi)) /\
      ((B2R b + t < B2R c \/ B2R d + t < B2R a) -> fst r = 0%nat) /\
      (B2R c + t < B2R b -> B2R a + t < B2R d -> fst r = 2%nat) /\
      ((B2R b = B2R c \/ B2R a = B2R d) -> fst r = 1%nat).
Proof. intros prec emax Hp He f g h pi S L t HL a b c d out. exact (interval_F f g h pi L t HL a b c d out). Qed.
Print Assumptions C05_interval_ieee.

(** doubles [0, 1] and [1, 1] with exact comparisons *)
Example C05_ieee_example : forall f g h pi,
  let S := B64 f g h pi in
  let z := B754_zero false : b64 in
  let o := b64_pow 1 0 in
  LinalF (raw_linal S z) 0 /\ is_finite z = true /\ is_finite o = true /\ B2R z <= B2R o /\
  fst (intersect_interval (raw_linal S z) (mkInterval (z : S) o) (mkInterval (o : S) o) (mkInterval (z : S) z)) = 1%nat.
Proof.
  intros f g h pi S z o. destruct (@one_spec 53 1024 prec53 prec_emax64) as (F & E).
  split; [exact (raw_linal_F f g h pi z)|]. split; [reflexivity|]. split; [exact F|].
  split; [change (0 <= B2R (ieee_pow 53 1024 prec53 prec_emax64 1 0)); rewrite E; lra|]. vm_compute. reflexivity.
Qed.

(** ** C55: box operations are exact in every IEEE-754 binary format.

    make_aabb of finite points has, per axis, the least and the greatest
    coordinate as bounds; release builds always deliver a box. *)
Theorem C55_make_aabb_ieee :
  forall (prec emax : Z) (Hp : Prec_gt_0 prec) (He : Prec_lt_emax prec emax) f g h pi,
    let S := IEEE prec emax Hp He f g h pi in
    forall (L : Linal S) (pts : list (vec S 3)),
      pts <> [] -> (forall q, In q pts -> finite_pt q) ->
      (exists r, make_aabb L false pts = Ok r) /\
      forall dbg r, make_aabb L dbg pts = Ok r ->
        finite_pt (a_min r) /\ finite_pt (a_max r) /\
        forall i, (i < 3)%nat ->
          is_min (map (fval i) pts) (fval i (a_min r)) /\ is_max (map (fval i) pts) (fval i (a_max r)).
Proof.
  intros prec emax Hp He f g h pi S L pts Hne Hf. split; [exact (make_aabb_F_ok f g h pi L pts)|].
  intros dbg r H. exact (make_aabb_F f g h pi L dbg pts r Hne Hf H).
Qed.
Print Assumptions C55_make_aabb_ieee.

(** Finiteness is needed: for a point with an infinite first coordinate the box
    is inverted in the other two axes (0 * infinity is NaN), whatever the other
    coordinates are. *)
Theorem C55_make_aabb_infinite_refuted :
  forall (prec emax : Z) (Hp : Prec_gt_0 prec) (He : Prec_lt_emax prec emax) f g h pi,
    let S := IEEE prec emax Hp He f g h pi in
    forall (L : Linal S) (s : bool) (y z : binary_float prec emax),
      exists r, make_aabb L false [mk3 (B754_infinity s) y z : vec S 3] = Ok r /\
        forall i, i = 1%nat \/ i = 2%nat -> fval i (a_max r) < fval i (a_min r).
Proof.
  intros prec emax Hp He f g h pi S L s y z.
  destruct (make_aabb_F_ok f g h pi L [mk3 (B754_infinity s) y z : vec S 3]) as (r & E). exists r. split; [exact E|].
  intros i Hi. destruct (make_aabb_inf f g h pi L s y z r E i Hi) as (A & B).
  pose proof (f_equal (@B2R prec emax) A) as A'. pose proof (f_equal (@B2R prec emax) B) as B'. rewrite B2R_Bopp in B'.
  refine (Rle_lt_trans _ _ _ (Req_le _ _ B') (Rlt_le_trans _ _ _ _ (Req_le _ _ (eq_sym A')))).
  destruct (@max_spec prec emax Hp He) as (_ & ->). destruct (@emax_pos prec emax Hp He).
  assert (bpow radix2 (emax - prec) < bpow radix2 emax) by (apply bpow_lt; lia). lra.
Qed.
Print Assumptions C55_make_aabb_infinite_refuted.

(** Growing a box by any sequence of points and boxes, for every implementation
    of the comparisons with slack [t]: nothing added is left out by more than
    [t], and the bounds are among the given coordinates (nothing is rounded). *)
Theorem C55_box_growth_ieee :
  forall (prec emax : Z) (Hp : Prec_gt_0 prec) (He : Prec_lt_emax prec emax) f g h pi,
    let S := IEEE prec emax Hp He f g h pi in
    forall (L : Linal S) (t : R), LinalF L t ->
    forall (n : nat) (gs : list (vec S n + aabb S n)) (b : aabb S n) (i : nat), (i < n)%nat ->
      finite_pt (a_min b) -> finite_pt (a_max b) ->
      (forall q, In q gs -> finite_pt (@loF S n q) /\ finite_pt (@hiF S n q)) ->
      let r := fold_left (growF_step L) gs b in
      let z := B754_zero false : binary_float prec emax in
      (fval i (a_min r) <= fval i (a_min b) /\ fval i (a_max b) <= fval i (a_max r)) /\
      (forall q, In q gs -> fval i (a_min r) <= fval i (@loF S n q) + t /\ fval i (@hiF S n q) <= fval i (a_max r) + t) /\
      In (vnth z i (a_min r)) (vnth z i (a_min b) :: map (fun q => vnth z i (@loF S n q)) gs) /\
      In (vnth z i (a_max r)) (vnth z i (a_max b) :: map (fun q => vnth z i (@hiF S n q)) gs).
Proof.
  intros prec emax Hp He f g h pi S L t HL n gs b i Hi F1 F2 Fg. exact (growF_covers f g h pi L t HL n gs b i Hi F1 F2 Fg).
Qed.
Print Assumptions C55_box_growth_ieee.

Lemma box_iff : forall lr hr la ha lb hb x : R, lr = Rmax la lb -> hr = Rmin ha hb ->
  (lr <= x <= hr <-> la <= x <= ha /\ lb <= x <= hb).
Proof. intros lr hr la ha lb hb x -> ->. unfold Rmax, Rmin. destruct Rle_dec, Rle_dec; lra. Qed.

(** Box against box: boxes that overlap by more than the slack on every axis are
    reported, reported boxes do overlap on every axis, and the intersection box
    is the exact set intersection. *)
Theorem C55_intersection_ieee :
  forall (prec emax : Z) (Hp : Prec_gt_0 prec) (He : Prec_lt_emax prec emax) f g h pi,
    let S := IEEE prec emax Hp He f g h pi in
    forall (L : Linal S) (t : R), LinalF L t ->
    forall (n : nat) (a b : aabb S n),
      finite_pt (a_min a) -> finite_pt (a_max a) -> finite_pt (a_min b) -> finite_pt (a_max b) ->
      (aabb_is_intersecting L a b = true ->
       forall i, (i < n)%nat -> fval i (a_min b) < fval i (a_max a) /\ fval i (a_min a) < fval i (a_max b)) /\
      ((forall i, (i < n)%nat -> fval i (a_min b) + t < fval i (a_max a) /\ fval i (a_min a) + t < fval i (a_max b)) ->
       aabb_is_intersecting L a b = true) /\
      (forall fill dbg r, aabb_is_intersecting L a b = true -> aabb_intersect L fill dbg a b = Ok r ->
       finite_pt (a_min r) /\ finite_pt (a_max r) /\
       forall i x, (i < n)%nat ->
         (fval i (a_min r) <= x <= fval i (a_max r) <->
          fval i (a_min a) <= x <= fval i (a_max a) /\ fval i (a_min b) <= x <= fval i (a_max b))).
Proof.
  intros prec emax Hp He f g h pi S L t HL n a b F1 F2 F3 F4. split; [|split].
  - exact (intersectF_sound f g h pi L t HL n a b F1 F2 F3 F4).
  - exact (intersectF_complete f g h pi L t HL n a b F1 F2 F3 F4).
  - intros fill dbg r H E. destruct (intersectF_box f g h pi L fill dbg n a b r F1 F2 F3 F4 H E) as (G1 & G2 & G3).
    split; [exact G1|]. split; [exact G2|]. intros i x Hi. destruct (G3 i Hi) as (A & B).
    refine (box_iff _ _ _ _ _ _ x A B).
Qed.
Print Assumptions C55_intersection_ieee.

(** The contract is met by exact comparisons (slack 0) and by comparing the
    rounded difference with any tolerance [e] (the slack is the number after [e]). *)
Theorem C55_contract_instances :
  forall (prec emax : Z) (Hp : Prec_gt_0 prec) (He : Prec_lt_emax prec emax) f g h pi,
    let S := IEEE prec emax Hp He f g h pi in
    forall e : binary_float prec emax,
      LinalF (raw_linal S e) 0 /\
      (is_finite e = true -> 0 <= B2R e -> LinalF (tol_linal S e) (succ radix2 (FLT_exp (3 - emax - prec) prec) (B2R e))).
Proof. intros prec emax Hp He f g h pi S e. split; [exact (raw_linal_F f g h pi e)|exact (tol_linal_F f g h pi e)]. Qed.
Print Assumptions C55_contract_instances.

(** doubles: two points, one of them with a huge and a negative zero coordinate *)
Example C55_example : forall f g h pi,
  let S := B64 f g h pi in
  let pts : list (vec S 3) := [mk3 (b64_pow 1 1000) (B754_zero true) (b64_ofZ 3); mk3 (b64_ofZ (-1)) (b64_ofZ 2) (b64_pow 1 (-1074))] in
  pts <> [] /\ (forall q, In q pts -> finite_pt q).
Proof.
  intros f g h pi S pts. split; [discriminate|]. intros q Hq i Hi. cbn in Hq.
  destruct Hq as [<-|[<-|[]]]; destruct i as [|[|[|i]]]; try lia; vm_compute; reflexivity.
Qed.

(** ** C56: the centre of a box in floating point.  It lies in the box on every
    axis on which the extent [max - min] does not overflow ... *)
Theorem C56_center_ieee_partial :
  forall (prec emax : Z) (Hp : Prec_gt_0 prec) (He : Prec_lt_emax prec emax) f g h pi,
    let S := IEEE prec emax Hp He f g h pi in
    forall (n : nat) (b : aabb S n), finite_pt (a_min b) -> finite_pt (a_max b) ->
    forall i, (i < n)%nat -> fval i (a_min b) <= fval i (a_max b) ->
      round radix2 (FLT_exp (3 - emax - prec) prec) ZnearestE (fval i (a_max b) - fval i (a_min b)) < bpow radix2 emax ->
      is_finite (vnth (B754_zero false) i (aabb_center b)) = true /\
      fval i (a_min b) <= fval i (aabb_center b) <= fval i (a_max b).
Proof.
  intros prec emax Hp He f g h pi S n b F1 F2 i Hi Hle. exact (proj1 (center_F f g h pi n b F1 F2 i Hi Hle)).
Qed.
Print Assumptions C56_center_ieee_partial.

(** ... and it is infinite on every axis on which it does. *)
Theorem C56_center_ieee_refuted :
  forall (prec emax : Z) (Hp : Prec_gt_0 prec) (He : Prec_lt_emax prec emax) f g h pi,
    let S := IEEE prec emax Hp He f g h pi in
    forall (n : nat) (b : aabb S n), finite_pt (a_min b) -> finite_pt (a_max b) ->
    forall i, (i < n)%nat -> fval i (a_min b) <= fval i (a_max b) ->
      bpow radix2 emax <= round radix2 (FLT_exp (3 - emax - prec) prec) ZnearestE (fval i (a_max b) - fval i (a_min b)) ->
      vnth (B754_zero false) i (aabb_center b) = B754_infinity false.
Proof.
  intros prec emax Hp He f g h pi S n b F1 F2 i Hi Hle. exact (proj2 (center_F f g h pi n b F1 F2 i Hi Hle)).
Qed.
Print Assumptions C56_center_ieee_refuted.

(** a box of doubles with finite corners, for which both cases occur *)
Example C56_example : forall f g h pi,
  let S := B64 f g h pi in
  let b : aabb S 2 := @mkAABB S 2 (mk2 (b64_pow (-1) 1023) (b64_ofZ 1)) (mk2 (b64_pow 1 1023) (b64_ofZ 2)) in
  finite_pt (a_min b) /\ finite_pt (a_max b) /\
  Beqb (vnth (B754_zero false) 0 (aabb_center b)) (B754_infinity false) = true /\
  Beqb (vnth (B754_zero false) 1 (aabb_center b)) (b64_pow 3 (-1)) = true.
Proof.
  intros f g h pi S b. split; [|split; [|split]].
  - intros [|[|i]] Hi; try lia; vm_compute; reflexivity.
  - intros [|[|i]] Hi; try lia; vm_compute; reflexivity.
  - vm_compute. reflexivity.
  - vm_compute. reflexivity.
Qed.
