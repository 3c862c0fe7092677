(** * Property theorems: intervals and boxes (C05-C10, C43) *)

From Coq Require Import List Arith Bool Lia Reals Lra.
From Verif Require Import Scalar Linal Result SpecReal VecR VecLemmas SpecBox ModelBox ProofBox.
Import ListNotations.
Local Open Scope R_scope.

(** ** C05: interval intersection, for every implementation of the comparisons
    that meets the tolerance contract ([e] = linal's eps) *)
Theorem C05_interval_intersection :
  forall (M : R) (L : Linal (RS M)), LinalR L ->
  forall (a b c d : R) (out : interval (RS M)), a <= b -> c <= d ->
    let e := leps L in
    let r := intersect_interval L (mkInterval a b) (mkInterval c d) out in
    (fst r = 0%nat /\ snd r = out /\ (b < c \/ d < a)) \/
    (fst r = 1%nat /\ i_end (snd r) = i_end out /\
     ((Rabs (b - c) <= e /\ i_start (snd r) = b) \/ (Rabs (a - d) <= e /\ i_start (snd r) = a))) \/
    (fst r = 2%nat /\ c < b /\ a < d /\
     Rmax a c - e <= i_start (snd r) <= Rmax a c /\
     Rmin b d <= i_end (snd r) <= Rmin b d + e /\ i_start (snd r) <= i_end (snd r)).
Proof. exact @interval_cases. Qed.
Print Assumptions C05_interval_intersection.

Example C05_example :
  LinalR (tol_linal (RS 100) (/ 10)) /\ 0 <= 2 /\ 1 <= 3 /\
  intersect_interval (tol_linal (RS 100) (/ 10)) (mkInterval 0 2) (mkInterval 1 3) (mkInterval 0 0)
    = (2%nat, mkInterval 1 2).
Proof.
  split; [apply tol_linal_R; lra|]. split; [lra|]. split; [lra|].
  unfold intersect_interval; cbn.
  rdec.
  reflexivity.
Qed.

(** the classification is complete away from the tolerance band, and exact touching is recognised *)
Theorem C05_interval_complete :
  forall (M : R) (L : Linal (RS M)), LinalR L ->
  forall (a b c d : R) (out : interval (RS M)), a <= b -> c <= d ->
    let e := leps L in
    let r := intersect_interval L (mkInterval a b) (mkInterval c d) out in
    ((b + e < c \/ d + e < a) -> fst r = 0%nat) /\
    (c + e < b -> a + e < d -> fst r = 2%nat) /\
    ((b = c \/ a = d) -> fst r = 1%nat).
Proof. exact @interval_complete. Qed.
Print Assumptions C05_interval_complete.

Example C05_complete_example :
  LinalR (tol_linal (RS 100) (/ 10)) /\ 1 + / 10 < 2 /\ 0 + / 10 < 3.
Proof. split; [apply tol_linal_R; lra|lra]. Qed.

(** for eps = 0 the result is the set intersection *)
Theorem C05_interval_exact :
  forall (M : R) (L : Linal (RS M)), LinalR L -> leps L = 0 ->
  forall (a b c d : R) (out : interval (RS M)), a <= b -> c <= d ->
    let r := intersect_interval L (mkInterval a b) (mkInterval c d) out in
    (fst r = 0%nat /\ forall x, ~ (in_interval a b x /\ in_interval c d x)) \/
    (fst r = 1%nat /\ forall x, in_interval a b x /\ in_interval c d x <-> x = i_start (snd r)) \/
    (fst r = 2%nat /\ forall x, in_interval a b x /\ in_interval c d x <->
                               in_interval (i_start (snd r)) (i_end (snd r)) x).
Proof.
  intros M L HL He0 a b c d out Hab Hcd r.
  pose proof (C05_interval_intersection M L HL a b c d out Hab Hcd) as H.
  cbn zeta in H. fold r in H. rewrite He0 in H. unfold in_interval.
  destruct H as [(H0 & _ & H)|[(H1 & _ & H)|(H2 & Hcb & Had & Hs & Ht & _)]].
  - left. split; [exact H0|]. intros x. lra.
  - right; left. split; [exact H1|]. intros x.
    destruct H as [[H ->]|[H ->]]; apply abs_le_inv in H; lra.
  - right; right. split; [exact H2|]. intros x.
    replace (i_start (snd r)) with (Rmax a c) by lra.
    replace (i_end (snd r)) with (Rmin b d) by lra.
    unfold Rmax, Rmin; destruct (Rle_dec a c), (Rle_dec b d); lra.
Qed.
Print Assumptions C05_interval_exact.

Example C05_exact_example : LinalR (raw_linal (RS 100) 0) /\ leps (raw_linal (RS 100) 0) = 0.
Proof. split; [apply raw_linal_R; lra|reflexivity]. Qed.

(** ** C06: growing a box.  [gs] is any sequence of added points and boxes;
    [glo]/[ghi] are the lower/upper corner of an added item. *)
Theorem C06_box_growth :
  forall (M : R) (L : Linal (RS M)), LinalR L ->
  forall (n : nat) (gs : list (grow (M := M) n)) (b : aabb (RS M) n) (i : nat), (i < n)%nat ->
    let r := fold_left (grow_step (L := L) n) gs b in
    (comp i (a_min r) <= comp i (a_min b) /\ comp i (a_max b) <= comp i (a_max r)) /\
    (forall g, In g gs -> comp i (a_min r) <= comp i (glo n g) + leps L /\
                          comp i (ghi n g) <= comp i (a_max r) + leps L) /\
    In (comp i (a_min r)) (comp i (a_min b) :: map (fun g => comp i (glo n g)) gs) /\
    In (comp i (a_max r)) (comp i (a_max b) :: map (fun g => comp i (ghi n g)) gs).
Proof. exact @grow_covers. Qed.
Print Assumptions C06_box_growth.

(** the box reports exactly what was added for eps = 0: per axis the minimum and maximum *)
Theorem C06_box_growth_exact :
  forall (M : R) (L : Linal (RS M)), LinalR L -> leps L = 0 ->
  forall (n : nat) (gs : list (grow (M := M) n)) (b : aabb (RS M) n) (i : nat), (i < n)%nat ->
    let r := fold_left (grow_step (L := L) n) gs b in
    is_min (comp i (a_min b) :: map (fun g => comp i (glo n g)) gs) (comp i (a_min r)) /\
    is_max (comp i (a_max b) :: map (fun g => comp i (ghi n g)) gs) (comp i (a_max r)).
Proof.
  intros M L HL He0 n gs b i Hi r.
  destruct (C06_box_growth M L HL n gs b i Hi) as ([H1 H2] & Hc & I1 & I2). fold r in H1, H2, Hc, I1, I2.
  rewrite He0 in Hc.
  split; (split; [assumption|]); intros x [<-|Hx]; try assumption;
    apply in_map_iff in Hx as (g & <- & Hg); specialize (Hc g Hg); cbn in *; lra.
Qed.
Print Assumptions C06_box_growth_exact.

Example C06_example :
  LinalR (tol_linal (RS 100) 0) /\
  let r := fold_left (grow_step (L := tol_linal (RS 100) 0) 2)
             [GPoint (mk2 5 1); GBox (mkAABB (mk2 (-3) 0) (mk2 (-2) 7))] (mkAABB (mk2 0 0) (mk2 1 1)) in
  comp 0 (a_min r) = -3 /\ comp 1 (a_max r) = 7.
Proof.
  split; [apply tol_linal_R; lra|]. cbn.
  rdec.
  split; reflexivity.
Qed.

(** ** C07: the default box is not neutral.  Adding a point whose first
    coordinate exceeds 1 leaves the lower corner at 1 (for both readings of
    linal's one-element initialiser). *)
Theorem C07_default_neutral_refuted :
  forall (M : R) (L : Linal (RS M)), LinalR L -> leps L < 1 ->
  forall (fill : bool) (n : nat),
    exists p : vec R (S n),
      let r := aabb_add_point L (aabb_default fill (S n)) p in
      comp 0 p = 5 /\ comp 0 (a_max r) = 5 /\ comp 0 (a_min r) = 1.
Proof.
  intros M L HL He fill n. exists (5, vconst n 0). cbn zeta. split; [reflexivity|].
  unfold comp, aabb_add_point. cbn [a_min a_max].
  rewrite !(vnth_vmap2 0 0 0) by lia. cbn.
  pose proof (lr_eps L HL) as He0.
  rewrite (lr_greater_0 L HL) by (lra || exact He0).
  split; [reflexivity|].
  destruct (isLess L (leps L) 5 1) eqn:E; [|reflexivity].
  apply (less_t HL) in E; [lra|exact He0].
Qed.
Print Assumptions C07_default_neutral_refuted.

Example C07_example : LinalR (tol_linal (RS 100) (/ 1000)) /\ leps (tol_linal (RS 100) (/ 1000)) < 1.
Proof. split; [apply tol_linal_R; lra|cbn; lra]. Qed.

(** What does hold: on an axis where some item reaches below 1 and some item
    reaches above -1, the bounds are those of the added items (with C06: tight up to eps). *)
Theorem C07_default_neutral_partial :
  forall (M : R) (L : Linal (RS M)), LinalR L ->
  forall (n : nat) (gs : list (grow (M := M) n)) (i : nat), (i < n)%nat ->
    (exists g, In g gs /\ comp i (glo n g) + leps L < 1) ->
    (exists g, In g gs /\ -1 < comp i (ghi n g) - leps L) ->
    let r := fold_left (grow_step (L := L) n) gs (aabb_default true n) in
    In (comp i (a_min r)) (map (fun g => comp i (glo n g)) gs) /\
    In (comp i (a_max r)) (map (fun g => comp i (ghi n g)) gs).
Proof. exact @default_grow. Qed.
Print Assumptions C07_default_neutral_partial.

Example C07_partial_example :
  let gs := [@GPoint 100 2 (mk2 0 5); GPoint (mk2 3 (-5))] in
  (exists g, In g gs /\ comp 1 (glo 2 g) + / 10 < 1) /\ (exists g, In g gs /\ -1 < comp 1 (ghi 2 g) - / 10).
Proof.
  cbn. split; [exists (GPoint (mk2 3 (-5)))|exists (GPoint (mk2 0 5))]; cbn; (split; [auto|unfold comp; cbn; lra]).
Qed.

(** ** C08: extreme points and make_aabb.  The projections have to lie in the
    range [-M, M] of the number type, otherwise the sentinels are returned. *)
Theorem C08_extreme_points :
  forall (M : R) (L : Linal (RS M)), LinalR L ->
  forall (dbg : bool) (n : nat) (dir : vec R n) (pts : list (vec R n)),
    pts <> [] -> rnorm dir = 1 -> (forall p, In p pts -> - M <= rdot p dir <= M) ->
    exists mn mx, extreme_points L dbg dir pts = Ok (mn, mx) /\
      is_min (map (fun p => rdot p dir) pts) mn /\ is_max (map (fun p => rdot p dir) pts) mx.
Proof. exact @extreme_points_R. Qed.
Print Assumptions C08_extreme_points.

Example C08_example :
  rnorm (mk2 (3 / 5) (4 / 5)) = 1 /\
  forall p, In p [mk2 1 2; mk2 (-3) 0] -> - (100) <= rdot p (mk2 (3 / 5) (4 / 5)) <= 100.
Proof.
  split.
  - unfold rnorm. replace (rdot _ _) with 1 by (cbn; field). apply sqrt_1.
  - intros p [<-|[<-|[]]]; cbn; lra.
Qed.

Theorem C08_make_aabb_tight :
  forall (M : R) (L : Linal (RS M)), LinalR L ->
  forall (dbg : bool) (pts : list (vec R 3)) (r : aabb (RS M) 3),
    (forall p j, In p pts -> (j < 3)%nat -> - M <= comp j p <= M) ->
    pts <> [] -> make_aabb L dbg pts = Ok r ->
    forall i, (i < 3)%nat ->
      is_min (map (comp i) pts) (comp i (a_min r)) /\ is_max (map (comp i) pts) (comp i (a_max r)).
Proof. exact @make_aabb_tight. Qed.
Print Assumptions C08_make_aabb_tight.

Theorem C08_make_aabb_succeeds :
  forall (M : R) (L : Linal (RS M)), LinalR L ->
  forall (dbg : bool) (pts : list (vec R 3)),
    (forall p j, In p pts -> (j < 3)%nat -> - M <= comp j p <= M) ->
    (forall i, (i < 3)%nat -> exists p q, In p pts /\ In q pts /\ comp i p + leps L < comp i q) ->
    exists r, make_aabb L dbg pts = Ok r.
Proof. exact @make_aabb_fat. Qed.
Print Assumptions C08_make_aabb_succeeds.

Example C08_make_aabb_example :
  let pts := [mk3 0 5 2; mk3 1 3 8] in
  (forall p j, In p pts -> (j < 3)%nat -> - (100) <= comp j p <= 100) /\
  (forall i, (i < 3)%nat -> exists p q, In p pts /\ In q pts /\ comp i p + / 10 < comp i q).
Proof.
  cbn zeta. split.
  - intros p j [<-|[<-|[]]] Hj; destruct j as [|[|[|j]]]; try lia; cbn; lra.
  - intros i Hi. destruct i as [|[|[|i]]]; try lia.
    + exists (mk3 0 5 2), (mk3 1 3 8). cbn. split; [auto|split; [auto|unfold comp; cbn; lra]].
    + exists (mk3 1 3 8), (mk3 0 5 2). cbn. split; [auto|split; [auto|unfold comp; cbn; lra]].
    + exists (mk3 0 5 2), (mk3 1 3 8). cbn. split; [auto|split; [auto|unfold comp; cbn; lra]].
Qed.

(** ** C09: with assertions on, make_aabb traps on every point set that is flat
    in some axis direction - in particular on a single point. *)
Theorem C09_make_aabb_never_traps_refuted :
  forall (M : R) (L : Linal (RS M)), LinalR L ->
  forall (pts : list (vec R 3)) (i : nat) (c : R),
    pts <> [] -> (forall p j, In p pts -> (j < 3)%nat -> - M <= comp j p <= M) ->
    (i < 3)%nat -> (forall p, In p pts -> comp i p = c) ->
    make_aabb L true pts = Trap.
Proof. exact @make_aabb_flat. Qed.
Print Assumptions C09_make_aabb_never_traps_refuted.

Example C09_example :
  let pts := [mk3 0 5 2; mk3 1 5 8] in
  pts <> [] /\ (forall p j, In p pts -> (j < 3)%nat -> - (100) <= comp j p <= 100) /\
  (forall p, In p pts -> comp 1 p = 5).
Proof.
  cbn zeta. split; [discriminate|]. split.
  - intros p j [<-|[<-|[]]] Hj; destruct j as [|[|[|j]]]; try lia; cbn; lra.
  - intros p [<-|[<-|[]]]; reflexivity.
Qed.

(** The documentation of is_valid ("true, if min <= max in every direction") is
    not met: a box with min = max is reported invalid; valid means strictly
    smaller, and boxes thicker than eps are valid. *)
Theorem C09_is_valid_doc_refuted :
  forall (M : R) (L : Linal (RS M)), LinalR L -> forall (n : nat) (p : vec R (S n)),
    aabb_is_valid L (mkAABB p p) = false.
Proof.
  intros M L HL n p. destruct (aabb_is_valid L (mkAABB p p)) eqn:E; [|reflexivity].
  apply (valid_sound HL) with (i := 0%nat) in E; [|lia]. cbn in E. lra.
Qed.
Print Assumptions C09_is_valid_doc_refuted.

Theorem C09_is_valid_meaning :
  forall (M : R) (L : Linal (RS M)), LinalR L -> forall (n : nat) (b : aabb (RS M) n),
    (aabb_is_valid L b = true -> forall i, (i < n)%nat -> comp i (a_min b) < comp i (a_max b)) /\
    ((forall i, (i < n)%nat -> comp i (a_min b) + leps L < comp i (a_max b)) -> aabb_is_valid L b = true).
Proof.
  intros M L HL n b. split; [apply (valid_sound HL)|apply (valid_complete HL)].
Qed.
Print Assumptions C09_is_valid_meaning.

Example C09_valid_example :
  forall i, (i < 2)%nat -> comp i (mk2 0 1) + / 10 < comp i (mk2 1 2).
Proof. intros [|[|i]] Hi; try lia; cbn; lra. Qed.

(** ** C10: box against box *)
Theorem C10_is_intersecting_sound :
  forall (M : R) (L : Linal (RS M)), LinalR L -> forall (n : nat) (a b : aabb (RS M) n),
    aabb_is_valid L a = true -> aabb_is_valid L b = true ->
    aabb_is_intersecting L a b = true ->
    exists x : vec R n, inside_box (a_min a) (a_max a) x /\ inside_box (a_min b) (a_max b) x.
Proof. exact @intersecting_interior. Qed.
Print Assumptions C10_is_intersecting_sound.

Theorem C10_is_intersecting_complete :
  forall (M : R) (L : Linal (RS M)), LinalR L -> forall (n : nat) (a b : aabb (RS M) n),
    (forall i, (i < n)%nat -> comp i (a_min b) + leps L < comp i (a_max a) /\
                              comp i (a_min a) + leps L < comp i (a_max b)) ->
    aabb_is_intersecting L a b = true.
Proof. exact @intersecting_complete. Qed.
Print Assumptions C10_is_intersecting_complete.

(** boxes that merely touch, although they share a point, are not reported *)
Theorem C10_touching_not_reported :
  forall (M : R) (L : Linal (RS M)), LinalR L -> forall (n : nat) (a b : aabb (RS M) n) (i : nat),
    (i < n)%nat -> comp i (a_max a) <= comp i (a_min b) \/ comp i (a_max b) <= comp i (a_min a) ->
    aabb_is_intersecting L a b = false.
Proof. exact @touching_not_intersecting. Qed.
Print Assumptions C10_touching_not_reported.

(** with comparisons that mirror each other the test is symmetric *)
Theorem C10_symmetric :
  forall (M : R) (L : Linal (RS M)),
    (forall e x y, isGreaterEq L e x y = isLessEq L e y x) ->
    forall (n : nat) (a b : aabb (RS M) n), aabb_is_intersecting L a b = aabb_is_intersecting L b a.
Proof. intros M L Hm n a b. exact (intersecting_sym n a b Hm). Qed.
Print Assumptions C10_symmetric.

(** the intersection box *)
Theorem C10_intersect_exact :
  forall (M : R) (L : Linal (RS M)), LinalR L ->
  forall (n : nat) (fill dbg : bool) (a b r : aabb (RS M) (S n)),
    aabb_intersect L fill dbg a b = Ok r ->
    (aabb_is_intersecting L a b = true /\
     forall x : vec R (S n), in_box (a_min r) (a_max r) x <->
       in_box (a_min a) (a_max a) x /\ in_box (a_min b) (a_max b) x) \/
    (aabb_is_intersecting L a b = false /\ aabb_is_valid L r = false /\ comp 0 (a_max r) < comp 0 (a_min r)).
Proof.
  intros M L HL n fill dbg a b r H.
  destruct (aabb_is_intersecting L a b) eqn:E.
  - left. split; [reflexivity|]. exact (intersect_true (S n) fill dbg a b r E H).
  - right. split; [reflexivity|]. rewrite (intersect_false (S n) fill dbg a b E) in H.
    apply Ok_inj in H. subst r. split; [apply (default_invalid HL)|].
    destruct (default_head (M := M) fill n) as [-> ->]. lra.
Qed.
Print Assumptions C10_intersect_exact.

(** with assertions on, intersecting two valid boxes does not trap *)
Theorem C10_intersect_no_trap :
  forall (M : R) (L : Linal (RS M)),
    (forall e x y, isGreaterEq L e x y = isLessEq L e y x) ->
    forall (n : nat) (fill dbg : bool) (a b : aabb (RS M) n),
      aabb_is_valid L a = true -> aabb_is_valid L b = true ->
      exists r, aabb_intersect L fill dbg a b = Ok r.
Proof. intros M L Hm n fill dbg a b. exact (intersect_no_trap n fill dbg a b Hm). Qed.
Print Assumptions C10_intersect_no_trap.

Example C10_example :
  let L := tol_linal (RS 100) (/ 10) in
  let a := @mkAABB (RS 100) 2 (mk2 0 0) (mk2 2 2) in
  let b := @mkAABB (RS 100) 2 (mk2 1 1) (mk2 3 3) in
  LinalR L /\ (forall e x y, isGreaterEq L e x y = isLessEq L e y x) /\
  aabb_is_valid L a = true /\ aabb_is_valid L b = true /\ aabb_is_intersecting L a b = true.
Proof.
  cbn zeta. split; [apply tol_linal_R; lra|]. split; [reflexivity|].
  unfold aabb_is_valid, aabb_is_intersecting, axis_apart; cbn.
  rdec.
  repeat split; reflexivity.
Qed.

(** ** C43: equality, emptiness, centre and the extent constructor of boxes and intervals *)
Theorem C43_box_queries :
  forall (M : R) (L : Linal (RS M)), LinalR L -> forall (n : nat) (a b : aabb (RS M) n),
    (* a box equals itself; equal boxes agree up to eps in every coordinate *)
    aabb_eq L a a = true /\
    (aabb_eq L a b = true -> forall i, (i < n)%nat ->
       Rabs (comp i (a_min a) - comp i (a_min b)) <= leps L /\
    Rabs (comp i (a_max a) - comp i (a_max b)) <= leps L) /\
    (* emptiness *)
    (aabb_is_empty L a = true -> exists i, (i < n)%nat /\ comp i (a_max a) < comp i (a_min a)) /\
    ((exists i, (i < n)%nat /\ comp i (a_max a) + leps L < comp i (a_min a)) -> aabb_is_empty L a = true) /\
    (* the centre is the midpoint *)
    (forall i, (i < n)%nat -> comp i (aabb_center a) = (comp i (a_min a) + comp i (a_max a)) / 2).
Proof.
  intros M L HL n a b. split; [apply (aabb_eq_refl HL)|]. split; [apply (aabb_eq_sound HL)|].
  split; [apply (empty_sound HL)|]. split; [|apply center_comp].
  intros (i & Hi & H). exact (empty_complete HL n a i Hi H).
Qed.
Print Assumptions C43_box_queries.

Theorem C43_box_from_extent :
  forall (M : R) (L : Linal (RS M)) (dbg : bool) (n : nat) (mn : vec R n) (ext : R),
    (0 <= ext -> exists r, @aabb_extend (RS M) dbg n mn ext = Ok r /\ a_min r = mn /\
    forall i, (i < n)%nat -> comp i (a_max r) = comp i mn + ext) /\
    (ext < 0 -> @aabb_extend (RS M) true n mn ext = Trap).
Proof.
  intros M L dbg n mn ext. unfold aabb_extend. split.
  - intros H. rewrite geo_assert_true by (apply (proj2 (Rleb_true 0 ext)); exact H).
    eexists; split; [reflexivity|]. split; [reflexivity|]. intros i Hi. cbn [a_max]. unfold comp.
    now rewrite (vnth_vmap 0 0) by assumption.
  - intros H. cbn. now rewrite (proj2 (Rleb_false 0 ext)) by lra.
Qed.
Print Assumptions C43_box_from_extent.

Theorem C43_interval_equality :
  forall (M : R) (L : Linal (RS M)), LinalR L -> forall (a b : interval (RS M)),
    interval_eq L a a = true /\
    (interval_eq L a b = true ->
       Rabs (i_start a - i_start b) <= leps L /\ Rabs (i_end a - i_end b) <= leps L).
Proof.
  intros M L HL a b. pose proof (lr_eps L HL) as He. unfold interval_eq. split.
  - rewrite !(lr_eq_0 L HL) by exact He. reflexivity.
  - rewrite andb_true_iff. intros [H1 H2]. split; apply (lr_eq_1 L HL); assumption.
Qed.
Print Assumptions C43_interval_equality.

(** after any sequence of set_min ([false]) and set_max ([true]) calls the corners
    are the last ones set *)
Theorem C43_setters :
  forall (S : Scalar) (n : nat) (b : aabb S n) (calls : list (bool * vec S n)),
    let r := fold_left (fun (b : aabb S n) (c : bool * vec S n) => if fst c then aabb_set_max b (snd c) else aabb_set_min b (snd c)) calls b in
    a_min r = last (map snd (filter (fun c : bool * vec S n => negb (fst c)) calls)) (a_min b) /\
    a_max r = last (map snd (filter fst calls)) (a_max b).
Proof.
  intros S n b calls. revert b. induction calls as [|[w p] calls IH]; intros b; cbn zeta; [split; reflexivity|].
  assert (K : forall (x d : vec S n) l, last (x :: l) d = last l x).
  { intros x d l. destruct l as [|y l]; [reflexivity|]. change (last (x :: y :: l) d) with (last (y :: l) d).
    revert x d y. induction l as [|z l IHl]; intros x d y; [reflexivity|]. change (last (z :: l) d = last (z :: l) x). apply IHl with (x := x). }
  cbn [fold_left fst snd]. destruct (IH (if w then aabb_set_max b p else aabb_set_min b p)) as [I1 I2]. rewrite I1, I2.
  destruct w; cbn [filter fst snd negb map]; rewrite ?K; split; reflexivity.
Qed.
Print Assumptions C43_setters.

Example C43_example :
  let L := tol_linal (RS 100) (/ 10) in
  let a := @mkAABB (RS 100) 2 (mk2 0 0) (mk2 2 2) in
  let b := @mkAABB (RS 100) 2 (mk2 0 (/ 20)) (mk2 2 2) in
  aabb_eq L a b = true /\ a <> b.
Proof.
  cbn zeta. split.
  - unfold aabb_eq, is_equal. cbn. unfold Rabs. repeat (destruct Rcase_abs; try lra); rdec; reflexivity.
  - intros H. apply (f_equal (fun x => comp 1 (a_min x))) in H. cbn in H. lra.
Qed.
