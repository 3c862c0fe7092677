(** * Lemmas: cuboids in floating point with a comparison that welds corners *)

From Coq Require Import List Arith Bool Lia Permutation ZArith Reals Lra.
From Flocq Require Import Core BinarySingleNaN.
From Verif Require Import Scalar Linal Result SpecReal VecR VecLemmas ModelKdTree SpecKdTree SpecIEEE SpecFloatErr SpecFloatTess SpecFloatOut SpecWeld
  ModelShapes ModelTransform ModelMesh SpecMesh ModelTess SpecTess ProofMesh ProofMeshMisc ProofMeshNormal ProofTessComb ProofTessConn ProofTessMesh ProofTess ProofTessCuboid ProofVolume
  ProofRound ProofIEEE ProofFloatErr ProofFloatSphere ProofFloatNormal ProofMeshIEEE ProofFloatTess ProofFloatOut ProofWeld.
Import ListNotations.
Local Open Scope R_scope.

(** ** The corners in exact arithmetic are apart *)
Lemma norm_of_comps (v : vec R 3) A : (forall i, (i < 3)%nat -> Rabs (vnth 0 i v) <= A) -> rnorm v <= 2 * A.
Proof. intros H. destruct (comp_ge v) as (i & Hi & K). specialize (H i Hi). lra. Qed.

Lemma diff_det o x y z u v :
  det (rsub (bpos o x y z u) (bpos o x y z v)) y z = (bit 0 u - bit 0 v) * det x y z /\
  det x (rsub (bpos o x y z u) (bpos o x y z v)) z = (bit 1 u - bit 1 v) * det x y z /\
  det x y (rsub (bpos o x y z u) (bpos o x y z v)) = (bit 2 u - bit 2 v) * det x y z.
Proof. unfold bpos, cuboid_point, det. v3. cbn. repeat split; ring. Qed.

Lemma bit_diff i u v : bit i u <> bit i v -> Rabs (bit i u - bit i v) = 1.
Proof.
  intros H. destruct (bit_01 i u) as [E|E], (bit_01 i v) as [E'|E']; rewrite E, E' in *; try contradiction.
  - replace (0 - 1) with (- (1)) by ring. rewrite Rabs_Ropp. apply Rabs_R1.
  - rewrite Rminus_0_r. apply Rabs_R1.
Qed.

Lemma bpos_apart o x y z A g u v : 0 < A -> (forall i, (i < 3)%nat -> Rabs (vnth 0 i x) <= A /\ Rabs (vnth 0 i y) <= A /\ Rabs (vnth 0 i z) <= A) ->
  8 * (A * A) * g <= Rabs (det x y z) -> bv_ok u -> bv_ok v -> u <> v ->
  exists i, (i < 3)%nat /\ g <= Rabs (vnth 0 i (bpos o x y z u) - vnth 0 i (bpos o x y z v)).
Proof.
  intros HA Hc Hg Hu Hv Hne. set (w := rsub (bpos o x y z u) (bpos o x y z v)).
  assert (Nx : rnorm x <= 2 * A) by (apply norm_of_comps; intros i Hi; apply Hc, Hi).
  assert (Ny : rnorm y <= 2 * A) by (apply norm_of_comps; intros i Hi; apply Hc, Hi).
  assert (Nz : rnorm z <= 2 * A) by (apply norm_of_comps; intros i Hi; apply Hc, Hi).
  pose proof (rnorm_nonneg x) as X0. pose proof (rnorm_nonneg y) as Y0. pose proof (rnorm_nonneg z) as Z0. pose proof (rnorm_nonneg w) as W0.
  assert (D : Rabs (det x y z) <= 4 * (A * A) * rnorm w).
  { assert (P : forall a b c, 0 <= a -> 0 <= b <= 2 * A -> 0 <= c <= 2 * A -> a * b * c <= 4 * (A * A) * a).
    { intros a b c Ha (Hb1 & Hb2) (Hc1 & Hc2). replace (4 * (A * A) * a) with (a * (2 * A) * (2 * A)) by ring.
      apply Rmult_le_compat; try assumption; [apply Rmult_le_pos; assumption|]. apply Rmult_le_compat_l; assumption. }
    destruct (diff_det o x y z u v) as (D0 & D1 & D2). fold w in D0, D1, D2.
    destruct (Req_dec (bit 0 u) (bit 0 v)) as [E0|N0].
    - destruct (Req_dec (bit 1 u) (bit 1 v)) as [E1|N1].
      + destruct (Req_dec (bit 2 u) (bit 2 v)) as [E2|N2].
        * exfalso. apply Hne. apply bit_inj; assumption.
        * apply (f_equal Rabs) in D2. rewrite Rabs_mult, (bit_diff _ _ _ N2), Rmult_1_l in D2. rewrite <- D2.
          eapply Rle_trans; [apply det_le|]. replace (rnorm x * rnorm y * rnorm w) with (rnorm w * rnorm x * rnorm y) by ring. apply P; auto.
      + apply (f_equal Rabs) in D1. rewrite Rabs_mult, (bit_diff _ _ _ N1), Rmult_1_l in D1. rewrite <- D1.
        eapply Rle_trans; [apply det_le|]. replace (rnorm x * rnorm w * rnorm z) with (rnorm w * rnorm x * rnorm z) by ring. apply P; auto.
    - apply (f_equal Rabs) in D0. rewrite Rabs_mult, (bit_diff _ _ _ N0), Rmult_1_l in D0. rewrite <- D0.
      eapply Rle_trans; [apply det_le|]. apply P; auto. }
  destruct (comp_ge w) as (i & Hi & K). exists i. split; [exact Hi|].
  assert (E : vnth 0 i w = vnth 0 i (bpos o x y z u) - vnth 0 i (bpos o x y z v)) by (unfold w, rsub; rewrite (vnth_vmap2 0 0) by exact Hi; reflexivity).
  rewrite <- E. assert (AA : 0 < A * A) by (apply Rmult_lt_0_compat; exact HA).
  apply Rmult_le_reg_l with (8 * (A * A)); [lra|]. eapply Rle_trans; [exact Hg|]. eapply Rle_trans; [exact D|].
  replace (8 * (A * A) * Rabs (vnth 0 i w)) with (4 * (A * A) * (2 * Rabs (vnth 0 i w))) by ring. apply Rmult_le_compat_l; lra.
Qed.

(** seen from the centre *)
Lemma corner_radius o x y z A v : 0 <= A -> (forall i, (i < 3)%nat -> Rabs (vnth 0 i x) <= A /\ Rabs (vnth 0 i y) <= A /\ Rabs (vnth 0 i z) <= A) ->
  rdist (bpos o x y z v) (cuboid_point o x y z (1/2) (1/2) (1/2)) <= 3 * A.
Proof.
  intros HA H. unfold rdist. replace (3 * A) with (2 * (3 / 2 * A)) by field. apply norm_of_comps. intros i Hi. destruct (H i Hi) as (Hx & Hy & Hz). clear H.
  assert (E : vnth 0 i (rsub (bpos o x y z v) (cuboid_point o x y z (1/2) (1/2) (1/2))) =
    (bit 0 v - 1/2) * vnth 0 i x + (bit 1 v - 1/2) * vnth 0 i y + (bit 2 v - 1/2) * vnth 0 i z).
  { unfold bpos, cuboid_point. revert Hi. clear. intros Hi. destruct o as (? & ? & ? & []), x as (? & ? & ? & []), y as (? & ? & ? & []), z as (? & ? & ? & []).
    destruct i as [|[|[|i]]]; [| | |lia]; cbn; ring. }
  rewrite E. assert (B : forall j r, Rabs r <= A -> Rabs ((bit j v - 1/2) * r) <= 1/2 * A).
  { intros j r Hr. rewrite Rabs_mult. apply Rmult_le_compat; try apply Rabs_pos; [|exact Hr]. destruct (bit_01 j v) as [-> | ->]; apply Rabs_le; lra. }
  pose proof (B 0%nat _ Hx) as B0. pose proof (B 1%nat _ Hy) as B1. pose proof (B 2%nat _ Hz) as B2.
  eapply Rle_trans; [apply Rabs_triang|]. pose proof (Rabs_triang ((bit 0 v - 1/2) * vnth 0 i x) ((bit 1 v - 1/2) * vnth 0 i y)). lra.
Qed.
Lemma corner_sixvol o x y z i j l : In (i, j, l) btris ->
  sixvol (cuboid_point o x y z (1/2) (1/2) (1/2)) (bpos o x y z l) (bpos o x y z j) (bpos o x y z i) = rdot (rcross x y) z / 2.
Proof.
  intros H. unfold btris in H. cbn [map rev3 In] in H. unfold bpos, cuboid_point, sixvol.
  repeat destruct H as [H|H]; try contradiction; injection H as <- <- <-; unfold bit; cbn [Nat.testbit Nat.odd Nat.even negb Nat.div2]; v3; field.
Qed.

(** all the ways in which the corners are added up *)
Lemma corner_sums O X Y Z :
  radd (mk3 0 0 0) O = bpos O X Y Z 0 /\
  radd X O = bpos O X Y Z 1 /\
  radd Y O = bpos O X Y Z 2 /\
  radd Z O = bpos O X Y Z 4 /\
  radd (radd X Y) O = bpos O X Y Z 3 /\
  radd (radd X Z) O = bpos O X Y Z 5 /\
  radd (radd Y Z) O = bpos O X Y Z 6 /\
  radd (radd (mk3 0 0 0) O) X = bpos O X Y Z 1 /\
  radd (radd Y O) X = bpos O X Y Z 3 /\
  radd (radd Z O) X = bpos O X Y Z 5 /\
  radd (radd (radd Y Z) O) X = bpos O X Y Z 7 /\
  radd (radd (mk3 0 0 0) O) Y = bpos O X Y Z 2 /\
  radd (radd X O) Y = bpos O X Y Z 3 /\
  radd (radd Z O) Y = bpos O X Y Z 6 /\
  radd (radd (radd X Z) O) Y = bpos O X Y Z 7 /\
  radd (radd (mk3 0 0 0) O) Z = bpos O X Y Z 4 /\
  radd (radd X O) Z = bpos O X Y Z 5 /\
  radd (radd Y O) Z = bpos O X Y Z 6 /\
  radd (radd (radd X Y) O) Z = bpos O X Y Z 7.
Proof. unfold bpos, bit, cuboid_point. cbn [Nat.testbit Nat.odd Nat.even negb Nat.div2]. v3. repeat split; repeat (f_equal; try ring). Qed.

(** ** Rounding errors of the corners *)
Section Box.
Context {p e : Z} {Hp : Prec_gt_0 p} {He : Prec_lt_emax p e} (H2 : (2 < p)%Z).
Notation bf := (binary_float p e).
Notation zero := (B754_zero false : bf).
Notation u := (uround p).
Notation fadd := (@Bplus p e Hp He mode_NE).
Context (fc fs fa : bf -> bf) (fpi : bf).
Notation S := (IEEE p e Hp He fc fs fa fpi).

Definition near (A c : R) (x : vec bf 3) (X : vec R 3) : Prop :=
  close_to c x X /\ forall i, (i < 3)%nat -> Rabs (vnth 0 i X) <= A.
Lemma near_weaken A c A' c' x X : near A c x X -> A <= A' -> c <= c' -> near A' c' x X.
Proof.
  intros ((F & E) & B) HA Hc. split; [split; [exact F|]|]; intros i Hi; [specialize (E i Hi)|specialize (B i Hi)]; lra.
Qed.
Lemma near_zero : near 0 0 (mk3 zero zero zero) (mk3 0 0 0).
Proof.
  split; [split|]; intros [|[|[|i]]] Hi; try lia; try reflexivity; unfold fval; cbn; rewrite ?Rminus_0_r, Rabs_R0; lra.
Qed.
Lemma near_add A c A' c' x y X Y : near A c x X -> near A' c' y Y -> A + A' + (c + c') <= bpow radix2 (e - 1) ->
  near (A + A') (c + c' + u * (A + A' + (c + c'))) (@vadd S 3 x y) (radd X Y).
Proof.
  intros ((Fx & Ex) & Bx) ((Fy & Ey) & By) Ho. pose proof (@u_pos p) as Hu.
  assert (K : forall i, (i < 3)%nat -> is_finite (vnth zero i (@vadd S 3 x y : vec bf 3)) = true /\
    Rabs (fval i (@vadd S 3 x y : vec bf 3) - vnth 0 i (radd X Y)) <= c + c' + u * (A + A' + (c + c')) /\ Rabs (vnth 0 i (radd X Y)) <= A + A').
  { intros i Hi. specialize (Ex i Hi). specialize (Ey i Hi). specialize (Bx i Hi). specialize (By i Hi).
    assert (Q : vnth zero i (@vadd S 3 x y : vec bf 3) = fadd (vnth zero i x) (vnth zero i y)) by (unfold vadd; rewrite (vnth_vmap2 zero zero) by exact Hi; reflexivity).
    assert (V : vnth 0 i (radd X Y) = vnth 0 i X + vnth 0 i Y) by (unfold radd; rewrite (vnth_vmap2 0 0) by exact Hi; reflexivity).
    rewrite V. unfold fval in *. rewrite Q. set (a := B2R (vnth zero i x)) in *. set (b := B2R (vnth zero i y)) in *. set (P := vnth 0 i X) in *. set (P' := vnth 0 i Y) in *.
    assert (B1 : Rabs (P + P') <= A + A') by (eapply Rle_trans; [apply Rabs_triang|]; lra).
    assert (B2 : Rabs (a + b - (P + P')) <= c + c').
    { replace (a + b - (P + P')) with ((a - P) + (b - P')) by ring. eapply Rle_trans; [apply Rabs_triang|]. lra. }
    assert (B3 : Rabs (a + b) <= A + A' + (c + c')).
    { replace (a + b) with ((P + P') + (a + b - (P + P'))) by ring. eapply Rle_trans; [apply Rabs_triang|]. lra. }
    destruct (@add_ok p e Hp He (vnth zero i x) (vnth zero i y) (Fx i Hi) (Fy i Hi)) as (F & E).
    { apply rnd_small. fold a b. lra. }
    split; [exact F|]. split; [|exact B1]. rewrite E. fold a b.
    assert (R : Rabs (rndf p e (a + b) - (a + b)) <= u * Rabs (a + b)) by (apply rnd_sum; apply (generic_format_B2R p e)).
    assert (u * Rabs (a + b) <= u * (A + A' + (c + c'))) by (apply Rmult_le_compat_l; lra).
    replace (rndf p e (a + b) - (P + P')) with ((rndf p e (a + b) - (a + b)) + (a + b - (P + P'))) by ring. eapply Rle_trans; [apply Rabs_triang|]. lra. }
  split; [split|]; intros i Hi; apply (K i Hi).
Qed.

Context (o x y z : vec bf 3) (O X Y Z : vec R 3) (A M : R).
Context (Ho : near M 0 o O) (Hx : near A 0 x X) (Hy : near A 0 y Y) (Hz : near A 0 z Z) (A0 : 0 < A) (M0 : 0 <= M) (HAM : 4 * A + 2 * M <= bpow radix2 (e - 1)).
Notation corner := (bpos O X Y Z).
Definition corner_err : R := u * (8 * A + 3 * M).
Lemma u8 : 0 < u <= 1 / 8.
Proof.
  split; [apply u_pos|]. unfold uround. replace (1 / 8) with (bpow radix2 (-3)) by (cbn; lra). apply bpow_le. lia.
Qed.

Definition base (v : vec bf 3) (P : vec R 3) : Prop := near (2 * A) (2 * u * A) v P.
Lemma base_zero : base (mk3 zero zero zero) (mk3 0 0 0).
Proof. pose proof u8. assert (0 <= u * A) by (apply Rmult_le_pos; lra). eapply near_weaken; [exact near_zero|lra|lra]. Qed.
Lemma base_side v P : near A 0 v P -> base v P.
Proof. intros H. pose proof u8. assert (0 <= u * A) by (apply Rmult_le_pos; lra). eapply near_weaken; [exact H|lra|lra]. Qed.
Lemma base_sum v P w Q : near A 0 v P -> near A 0 w Q -> base (@vadd S 3 v w) (radd P Q).
Proof. intros H H'. eapply near_weaken; [apply (near_add _ _ _ _ _ _ _ _ H H'); lra|lra|lra]. Qed.

Lemma err_small : 0 <= u * A <= A / 8 /\ 0 <= u * M <= M / 8 /\ 0 <= u * (u * A) <= u * A / 8 /\ 0 <= u * (u * M) <= u * M / 8 /\ 0 <= u * (u * (u * A)) <= u * (u * A) / 8.
Proof.
  pose proof u8 as (U & U8).
  assert (K : forall r, 0 <= r -> 0 <= u * r <= r / 8).
  { intros r Hr. split; [apply Rmult_le_pos; lra|]. replace (r / 8) with (1 / 8 * r) by field. apply Rmult_le_compat_r; lra. }
  pose proof (K A ltac:(lra)) as K1. pose proof (K M M0) as K2. pose proof (K (u * A) ltac:(lra)) as K3. pose proof (K (u * M) ltac:(lra)) as K4. pose proof (K (u * (u * A)) ltac:(lra)) as K5. auto.
Qed.
Lemma corner_origin v P n : base v P -> radd P O = corner n -> close_to corner_err (@vadd S 3 v o) (corner n).
Proof.
  intros H <-. pose proof err_small as (E1 & E2 & E3 & E4 & E5).
  refine (proj1 (near_weaken _ _ (2 * A + M) corner_err _ _ (near_add _ _ _ _ _ _ _ _ H Ho _) (Rle_refl _) _)); [lra|]. unfold corner_err. lra.
Qed.
Lemma corner_moved v P w Q n : base v P -> near A 0 w Q -> radd (radd P O) Q = corner n -> close_to corner_err (@vadd S 3 (@vadd S 3 v o) w) (corner n).
Proof.
  intros H H' <-. pose proof err_small as (E1 & E2 & E3 & E4 & E5).
  refine (proj1 (near_weaken _ _ (2 * A + M + A) corner_err _ _ (near_add _ _ _ _ _ _ _ _ (near_add _ _ _ _ _ _ _ _ H Ho _) H' _) (Rle_refl _) _)); [lra|lra|]. unfold corner_err. lra.
Qed.

Definition lab (q : point S) (n : nat) : Prop := bv_ok n /\ close_to corner_err (q : vec bf 3) (corner n).
Ltac corner_eq := let K := fresh in pose proof (corner_sums O X Y Z) as K;
  repeat match type of K with ?P /\ ?Q => first [exact (proj1 K)|apply proj2 in K] end; exact K.
Ltac base_of b := lazymatch b with
  | x => constr:(base_side x X Hx) | y => constr:(base_side y Y Hy) | z => constr:(base_side z Z Hz)
  | vadd x y => constr:(base_sum x X y Y Hx Hy) | vadd x z => constr:(base_sum x X z Z Hx Hz) | vadd y z => constr:(base_sum y Y z Z Hy Hz)
  | _ => constr:(base_zero) end.
Ltac side_of b := lazymatch b with x => constr:(Hx) | y => constr:(Hy) | z => constr:(Hz) end.
Ltac corner_lab := split; [unfold bv_ok; lia|];
  lazymatch goal with
  | |- close_to _ (vadd (vadd ?b o) ?w) (bpos _ _ _ _ ?n) => let H := base_of b in let H' := side_of w in refine (corner_moved _ _ _ _ n H H' _)
  | |- close_to _ (vadd ?b o) (bpos _ _ _ _ ?n) => let H := base_of b in refine (corner_origin _ _ n H _)
  end; solve [corner_eq].
Lemma triangles_lab : Forall2 (fun t T => let '(x0, x1, x2) := t in let '(v0, v1, v2) := rev3 T in lab x0 v0 /\ lab x1 v1 /\ lab x2 v2)
  (cuboid_triangles (@mkCuboid S o x y z)) btris.
Proof.
  unfold cuboid_triangles, face_triangles, btris. cbn [cu_x cu_y cu_z cu_origin map app rev3].
  repeat first [apply Forall2_nil|apply Forall2_cons; [cbn [rev3]; (split; [|split]); corner_lab|]].
Qed.
Definition some_corner (n : nat) : point S :=
  let b : vec bf 3 := if Nat.testbit n 1 then (if Nat.testbit n 2 then @vadd S 3 y z else y) else (if Nat.testbit n 2 then z else mk3 zero zero zero) in
  if Nat.testbit n 0 then @vadd S 3 (@vadd S 3 b o) x else @vadd S 3 b o.
Lemma some_lab n : bv_ok n -> lab (some_corner n) n.
Proof.
  intros Hn. unfold bv_ok in Hn.
  do 8 (destruct n as [|n]; [unfold some_corner; cbn [Nat.testbit Nat.odd Nat.even negb Nat.div2]; corner_lab|]). lia.
Qed.

(** ** The mesh *)
Context (L : Linal S) (t s : R) (HL : equal_within L t) (HS : equal_if_within L s) (k : BinNums.Z) (Hk : (3 - e - p <= 2 * k)%Z).
Context (Hs : 2 * corner_err <= s) (Hd : 8 * (A * A) * (2 * corner_err + t + bpow radix2 k) <= Rabs (det X Y Z)).
Lemma corners_apart v w : In v (seq 0 8) -> In w (seq 0 8) -> v <> w ->
  exists i, (i < 3)%nat /\ 2 * corner_err + t + bpow radix2 k <= Rabs (vnth 0 i (corner v) - vnth 0 i (corner w)).
Proof.
  intros Hv Hw Hne. apply in_seq in Hv, Hw. apply (bpos_apart O X Y Z A); try assumption; try (unfold bv_ok; lia).
  intros i Hi. split; [exact (proj2 Hx i Hi)|]. split; [exact (proj2 Hy i Hi)|exact (proj2 Hz i Hi)].
Qed.
Lemma lab_veq (q q' : point S) v w : lab q v -> lab q' w -> (veq L q q' = true <-> v = w).
Proof.
  intros (Hv & Hq) (Hw & Hq'). split.
  - intros E. destruct (Nat.eq_dec v w) as [|Hne]; [assumption|exfalso].
    destruct (corners_apart v w ltac:(apply in_seq; unfold bv_ok in *; lia) ltac:(apply in_seq; unfold bv_ok in *; lia) Hne) as (i & Hi & K).
    pose proof (ew_close _ _ HL 3 q q' (proj1 Hq) (proj1 Hq') E i Hi) as C. pose proof (bpow_gt_0 radix2 k) as B.
    pose proof (close_apart corner_err q q' _ _ i (t + bpow radix2 k) Hi Hq Hq' ltac:(lra)) as D. lra.
  - intros <-. apply (HS 3%nat q q' (proj1 Hq) (proj1 Hq')). intros i Hi. destruct Hq as (_ & Hq), Hq' as (_ & Hq'). specialize (Hq i Hi). specialize (Hq' i Hi).
    replace (fval i (q : vec bf 3) - fval i (q' : vec bf 3)) with ((fval i (q : vec bf 3) - vnth 0 i (corner v)) + - (fval i (q' : vec bf 3) - vnth 0 i (corner v))) by ring.
    eapply Rle_trans; [apply Rabs_triang|]. rewrite Rabs_Ropp. lra.
Qed.

Lemma cuboid_weld W dbg self SZ : (36 < W)%nat ->
  exists (m : mesh S) (pos : nat -> point S), cuboid_mesh L W dbg self SZ (@mkCuboid S o x y z) = Ok m /\
    surface_mesh W dbg self 8 btris (map pos (seq 0 8)) m /\ well_formed L self (solid_triangles S btris pos) m /\
    NoDup (map pos (seq 0 8)) /\ veq_on L (fun q => In q (map pos (seq 0 8))) /\
    (forall v, bv_ok v -> close_to corner_err (pos v : vec bf 3) (corner v)).
Proof.
  intros HW. set (c := @mkCuboid S o x y z).
  destruct (welded_labelled L lab some_corner btris (cuboid_triangles c) lab_veq triangles_lab (fun v Hv => some_lab v (proj1 (btri_corner v) Hv))) as (Hg & Ew & Hpos).
  set (pos := fun v => first_equal L (points_of (cuboid_triangles c)) (some_corner v)) in *.
  assert (Hc : forall v, In v (seq 0 8) -> close_to corner_err (pos v : vec bf 3) (corner v)).
  { intros v Hv. apply Hpos. apply btri_corner. apply in_seq in Hv. unfold bv_ok. lia. }
  pose proof (fp_nodup fc fs fa fpi L t HL k Nat.eq_dec (seq 0 8) pos (bpos O X Y Z) corner_err Hc corners_apart (seq_NoDup 8 0)) as Hnd.
  pose proof (fp_separated fc fs fa fpi L t HL k Hk Nat.eq_dec (seq 0 8) pos (bpos O X Y Z) corner_err Hc corners_apart) as Hsep.
  pose proof (fp_veq fc fs fa fpi L t HL k Nat.eq_dec (seq 0 8) pos (bpos O X Y Z) corner_err Hc corners_apart) as HG.
  assert (Hin : forall v, bv_ok v -> nth_error (map pos (seq 0 8)) v = Some (pos v)).
  { intros v Hv. rewrite nth_error_map, (nth_error_nth' _ 0%nat) by (rewrite seq_length; exact Hv). rewrite seq_nth by exact Hv. reflexivity. }
  destruct (surface_solid_wf L W dbg self SZ _ HG (near_ieee H2 fc fs fa fpi SZ _ k Hsep) bv_ok (fun v => v) (seq 0 8) 8 btris) with (pos := pos) as (m & E & H & Hwf).
  - apply map_id.
  - intros v Hv. apply in_seq in Hv. unfold bv_ok. lia.
  - intros ? ? _ _ E. exact E.
  - intros v Hv. exact Hv.
  - exact btri_corner.
  - exact btri_closed.
  - exact btri_connected.
  - exact btri_star.
  - cbn. lia.
  - intros a b Hu Hv E. apply (proj1 (NoDup_nth_error _) Hnd); [rewrite map_length, seq_length; exact Hu|].
    rewrite !Hin by assumption. congruence.
  - intros v Hv. eapply nth_error_In, Hin, Hv.
  - exists m, pos. split.
    + unfold cuboid_mesh. rewrite (add_triangles_welded L W dbg self (cuboid_triangles c) Hg), Ew.
      unfold built, mesh_run in E. rewrite foldM_app, adds_run in E.
      destruct (add_triangles _ _ _ _ _ _) as [m0| | | |]; try discriminate. cbn [bind foldM mesh_step] in E |- *.
      destruct (set_opposite_halfedges _ _ _ _ _) as [m1| | | |]; try discriminate. cbn [bind] in E |- *. injection E as ->.
      destruct H as (_ & _ & _ & Hv & Hh & _). rewrite Hv, Hh. destruct dbg; reflexivity.
    + split; [exact H|]. split; [exact Hwf|]. split; [exact Hnd|]. split; [exact HG|].
      intros v Hv. apply Hc. apply in_seq. unfold bv_ok in Hv. lia.
Qed.
End Box.
