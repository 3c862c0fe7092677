(** * Property theorems: the assertions on directions in floating point (C91) *)

From Coq Require Import List Arith Bool Lia ZArith Reals Lra Psatz.
From Flocq Require Import Core BinarySingleNaN.
From Verif Require Import Scalar Linal Result SpecReal VecR VecLemmas ModelKdTree SpecKdTree SpecIEEE SpecFloatErr SpecFloatTess SpecFloatUnit SpecTransform
  ModelShapes ModelTransform ModelMesh SpecMesh ModelTess SpecTess ProofRound ProofIEEE ProofFloatErr ProofFloatNorm ProofFloatNormal ProofFloatTrig ProofFloatRound
  PropMeshIEEE PropFloatNorm PropFloatTess PropFloatRound PropWeld.
Import ListNotations.
Local Open Scope R_scope.

(** the number 1 *)
Lemma float_one p e (Hp : Prec_gt_0 p) (He : Prec_lt_emax p e) : is_finite (ieee_pow p e Hp He 1 0) = true /\ B2R (ieee_pow p e Hp He 1 0) = 1.
Proof.
  pose proof Hp as P0. pose proof He as P1. unfold Prec_gt_0 in P0. unfold Prec_lt_emax in P1.
  destruct (@pow_spec p e Hp He 1 0) as [F E]; [|lia|lia|].
  - change (Z.abs 1) with (2 ^ 0)%Z. apply Z.pow_lt_mono_r; lia.
  - split; [exact F|]. rewrite E. cbn. lra.
Qed.

(** a number near [l] is not near 0 *)
Lemma far_apart (x l u t : R) : Rabs (x - l) <= (1 + 1 + 1 + 3) * u * l -> Rabs x <= t -> t < (1 - 6 * u) * l -> False.
Proof. intros H B. apply Rabs_le_inv in H. apply Rabs_le_inv in B. lra. Qed.

(** the computed length of a computed direction *)
Lemma unit_length {p e} {Hp : Prec_gt_0 p} {He : Prec_lt_emax p e} f g h pi (k K : Z) (v : vec (binary_float p e) 3) :
  (12 <= e)%Z -> 128 * uround p <= 1 -> moderate k K v ->
  let l := @vlength (IEEE p e Hp He f g h pi) 3 (@normalize (IEEE p e Hp He f g h pi) 3 v) : binary_float p e in
  is_finite l = true /\ Rabs (B2R l - 1) <= 10 * uround p.
Proof.
  intros H12 Hu Hm. pose proof (@u_pos p) as u0. assert (Hn : (INR 3 + 1) * uround p <= 1 / 32) by (cbn [INR]; lra).
  destruct (C65_line_normalised p e Hp He f g h pi 3 k K v v Hn Hm) as (_ & Fd & _ & Hd).
  set (d := l_dir (@line_make (IEEE p e Hp He f g h pi) 3 v v) : vec (binary_float p e) 3) in *.
  change (@normalize (IEEE p e Hp He f g h pi) 3 v) with d. cbn [INR] in Hd. apply Rabs_le_inv in Hd.
  assert (Md : moderate (-2) 1 d).
  { split; [exact Fd|]. split; [lia|]. split.
    { apply Rle_trans with (bpow radix2 4); [cbn; lra|apply bpow_le; lia]. }
    split.
    - intros i Hi. rewrite <- vnth_real. eapply Rle_trans; [apply comp_le, Hi|]. change (bpow radix2 1) with 2. lra.
    - destruct (comp_ge (vreal d)) as (i & Hi & G). exists i. split; [exact Hi|]. rewrite <- vnth_real. change (bpow radix2 (-2)) with (/ 4). lra. }
  destruct (length_err f g h pi 3 d (-2) 1 Hn Md) as (N0 & Fl & _ & Hl). cbv zeta. split; [exact Fl|].
  set (N := rnorm (vreal d)) in *. cbn [INR] in Hl.
  assert (B : (55 / 100 * (1 + 1 + 1 + 1) * uround p + 102 / 100 * uround p) * N <= 4 * uround p).
  { apply Rle_trans with ((55 / 100 * (1 + 1 + 1 + 1) * uround p + 102 / 100 * uround p) * (1 + 1 / 20)); [|lra].
    apply Rmult_le_compat_l; lra. }
  match type of Hl with Rabs (B2R ?x - _) <= _ => set (b := B2R x) in * end.
  apply Rabs_le_inv in Hl. apply Rabs_le. lra.
Qed.

(** ** C91: a computed direction passes the assertion of Circle3::set_normal. *)
Theorem C91_set_normal :
  forall p e Hp He f g h pi, let S := IEEE p e Hp He f g h pi in
  forall (L : Linal S) (dbg : bool) (s : R) (k K : Z) (c : circle3 S) (v : vec (binary_float p e) 3),
    (12 <= e)%Z -> 128 * uround p <= 1 -> moderate k K v ->
    scalars_equal_if_within L s -> 10 * uround p <= s ->
    circle3_set_normal L dbg c (@normalize S 3 v) = Ok (mkCircle3 (c3_origin c) (c3_radius c) (@normalize S 3 v)).
Proof.
  intros p e Hp He f g h pi S L dbg s k K c v H12 Hu Hm HL Hs.
  destruct (unit_length f g h pi k K v H12 Hu Hm) as (Fl & Hl). destruct (float_one p e Hp He) as (F1 & E1).
  unfold circle3_set_normal.
  assert (Q : isEq L (leps L) (@vlength S 3 (@normalize S 3 v)) s1 = true).
  { apply HL; [exact Fl|exact F1|]. change (B2R (s1 : S)) with (B2R (ieee_pow p e Hp He 1 0)). rewrite E1. eapply Rle_trans; [exact Hl|exact Hs]. }
  rewrite Q. destruct dbg; reflexivity.
Qed.
Print Assumptions C91_set_normal.

(** The two assertions of ConeMeshBuilder::build hold for an axis that is longer than the
    tolerance. *)
Theorem C91_cone_assertions :
  forall p e Hp He f g h pi, let S := IEEE p e Hp He f g h pi in
  forall (L : Linal S) (s t : R) (k K : Z) (seg : segment S 3),
    let src := g_source seg : vec (binary_float p e) 3 in let tgt := g_target seg : vec (binary_float p e) 3 in
    (12 <= e)%Z -> 128 * uround p <= 1 -> finite_pt src -> finite_pt tgt -> moderate k K (@vsub S 3 tgt src : vec (binary_float p e) 3) ->
    scalars_equal_if_within L s -> 10 * uround p <= s ->
    zero_only_within L t -> t < (1 - 6 * uround p) * rdist (vreal tgt) (vreal src) ->
    isZero L (leps L) (segment_length seg) = false /\ isEq L (leps L) (vlength (segment_direction seg)) s1 = true.
Proof.
  intros p e Hp He f g h pi S L s t k K seg src tgt H12 Hu Fs Ft Hm HL Hs HZ Hlt. pose proof (@u_pos p) as u0.
  destruct (C65_segment p e Hp He f g h pi 3 k K seg ltac:(cbn [INR]; lra) Fs Ft Hm) as (Fl & Hl & _). cbn [INR] in Hl. fold src tgt in Hl.
  destruct (float_one p e Hp He) as (F1 & E1). split.
  - match goal with |- ?b = false => destruct b eqn:Ez; [exfalso|reflexivity] end.
    pose proof (HZ _ Fl Ez) as B. exact (far_apart _ _ _ _ Hl B Hlt).
  - destruct (unit_length f g h pi k K _ H12 Hu Hm) as (Fn & Hn). apply HL; [exact Fn|exact F1|].
    change (B2R (s1 : S)) with (B2R (ieee_pow p e Hp He 1 0)). rewrite E1. eapply Rle_trans; [exact Hn|exact Hs].
Qed.
Print Assumptions C91_cone_assertions.

(** So the cone meshes of C70 are built in debug mode as well, without a hypothesis on
    the assertions. *)
Theorem C91_cone_debug :
  forall p e Hp He, (2 < p)%Z -> forall f g h pi,
  let S := IEEE p e Hp He f g h pi in
  forall (L : Linal S) W meq dbg self SZ (rot_align : hvec S -> hvec S -> hmat S) (k k1 K1 : Z) (na : nat) (co : cone S) (A : vec (vec R 3) 3) (d t M s1' t1 : R),
    (3 <= na)%nat -> (6 * na < W)%nat ->
    trig_accurate d f g pi -> equal_within L t -> identity_within meq t -> (3 - e - p <= 2 * k)%Z ->
    let seg := co_segment co in
    let src := g_source seg : vec (binary_float p e) 3 in let tgt := g_target seg : vec (binary_float p e) 3 in
    let r := B2R (co_radius co : binary_float p e) in let l := rdist (vreal tgt) (vreal src) in
    in_reach tgt src -> (forall i, (i < 3)%nat -> Rabs (fval i src) <= M) -> M <= bpow radix2 (e - 4) ->
    is_finite (co_radius co : binary_float p e) = true -> 0 < r -> r + l <= bpow radix2 (e - 4) ->
    rotation_onto A (rdirection (rsub (vreal tgt) (vreal src))) ->
    rotation_within d A (rot_align (mk4 s0 s0 s1 s1) (to_hvec (segment_direction seg))) ->
    (12 <= e)%Z -> 128 * uround p <= 1 -> moderate k1 K1 (@vsub S 3 tgt src : vec (binary_float p e) 3) ->
    scalars_equal_if_within L s1' -> 10 * uround p <= s1' -> zero_only_within L t1 -> t1 < (1 - 6 * uround p) * l ->
    let c := 150 * (d * (r + l)) + 10 * bpow radix2 k + 4 * (uround p * M) + t * (1 + 3 * (r + l)) in
    INR na * (2 * c + t + bpow radix2 k) <= r -> 2 * (2 * c + t + bpow radix2 k) <= l ->
    let vertex q := q = vreal src \/ q = vreal tgt \/ rim na A (vreal src) r q in
    exists m, mb_cone L W meq dbg self SZ rot_align na co = Ok (Some m) /\
      closed_on W dbg self (m_points m) (2 * na) m /\
      NoDup (m_points m) /\ length (m_points m) = (na + 2)%nat /\
      (forall x : vec (binary_float p e) 3, In x (m_points m) -> exists q, vertex q /\ close_to c x q) /\
      (forall q, vertex q -> exists! x : vec (binary_float p e) 3, In x (m_points m) /\ close_to c x q).
Proof.
  intros p e Hp He H2 f g h pi S L W meq dbg self SZ rot_align k k1 K1 na co A d t M s1' t1 Hna HW Ht HL Hm Hk seg src tgt r l HR HsM HM Fr Hr Hre HA HX H12 Hu Hmod Heq Hs HZ Hlt c Hs1 Hs2.
  destruct HR as (Ft & Fs & HR).
  apply (C70_cone p e Hp He H2 f g h pi L W meq dbg self SZ rot_align k na co A d t M Hna HW Ht HL Hm Hk (conj Ft (conj Fs HR)) HsM HM Fr Hr Hre HA HX).
  - intros _. exact (C91_cone_assertions p e Hp He f g h pi L s1' t1 k1 K1 seg H12 Hu Fs Ft Hmod Heq Hs HZ Hlt).
  - exact Hs1.
  - exact Hs2.
Qed.
Print Assumptions C91_cone_debug.

(** The comparisons of [tol_linal] and [tolvec_linal] meet the contracts. *)
Theorem C91_tolerance :
  forall p e Hp He f g h pi (x : binary_float p e), is_finite x = true -> 0 <= B2R x ->
  let S := IEEE p e Hp He f g h pi in
    (scalars_equal_if_within (tol_linal S x) (B2R x) /\ zero_only_within (tol_linal S x) (B2R x)) /\
    (scalars_equal_if_within (tolvec_linal S x) (B2R x) /\ zero_only_within (tolvec_linal S x) (B2R x)).
Proof.
  intros p e Hp He f g h pi x Fx Hx S.
  assert (A1 : scalars_equal_if_within (tol_linal S x) (B2R x)).
  { intros a b Fa Fb H. apply (sub_small a b x Fa Fb Fx).
    rewrite <- rnd_abs, <- (rnd_id (p := p) (e := e) (B2R x)) by apply (generic_format_B2R p e). apply rnd_le, H. }
  assert (A2 : zero_only_within (tol_linal S x) (B2R x)).
  { intros a Fa H. change (Bleb (Babs a) x = true) in H. rewrite Bleb_correct in H by (try rewrite is_finite_Babs; assumption). rewrite B2R_Babs in H.
    destruct (Rle_bool_spec (Rabs (B2R a)) (B2R x)) as [H'|]; [exact H'|discriminate]. }
  split; split; [exact A1|exact A2|exact A1|exact A2].
Qed.
Print Assumptions C91_tolerance.

(** With exact comparisons the assertions fail on ordinary input: in double precision
    the direction of (1, 3, 3) has a computed length below 1. *)
Theorem C91_exact_refuted :
  forall f g h pi, let S := B64 f g h pi in let L := raw_linal S s0 in
  let v := mk3 (b64_ofZ 1) (b64_ofZ 3) (b64_ofZ 3) : vec S 3 in
    (forall c : circle3 S, circle3_set_normal L true c (normalize v) = Trap) /\
    (forall W meq self SZ rot_align na (r : S),
      mb_cone L W meq true self SZ rot_align na (mkCone (mkSegment (mk3 s0 s0 s0) v) r) = Trap).
Proof.
  intros f g h pi S L v.
  assert (Q : isEq L (leps L) (vlength (normalize v)) s1 = false) by (vm_compute; reflexivity).
  assert (Q2 : isEq L (leps L) (vlength (segment_direction (mkSegment (mk3 s0 s0 s0) v))) s1 = false) by (vm_compute; reflexivity).
  split.
  - intros c. unfold circle3_set_normal. rewrite Q. reflexivity.
  - intros W meq self SZ rot_align na r. unfold mb_cone, cone_build. cbn [co_segment]. cbn [geo_assert bind].
    rewrite Q2. destruct (isZero L (leps L) (segment_length (mkSegment (mk3 s0 s0 s0) v))); reflexivity.
Qed.
Print Assumptions C91_exact_refuted.

(** The hypotheses are met by the same vector with a tolerance of 2^-30. *)
Example C91_example :
  forall f g h pi, let S := B64 f g h pi in let x := b64_pow 1 (-30) in let L := tol_linal S x in
  let v := mk3 (b64_ofZ 1) (b64_ofZ 3) (b64_ofZ 3) : vec b64 3 in
    moderate 0 2 v /\
    (forall dbg (c : circle3 S), circle3_set_normal L dbg c (@normalize S 3 v) = Ok (mkCircle3 (c3_origin c) (c3_radius c) (@normalize S 3 v))) /\
    (let seg := @mkSegment S 3 (mk3 s0 s0 s0) v in
     isZero L (leps L) (segment_length seg) = false /\ isEq L (leps L) (vlength (segment_direction seg)) s1 = true).
Proof.
  intros f g h pi S x L v.
  destruct (b64_small 1 ltac:(lia)) as (F1 & E1). destruct (b64_small 3 ltac:(lia)) as (F3 & E3).
  assert (Hm : moderate 0 2 v).
  { split; [intros i Hi; destruct i as [|[|[|i]]]; [exact F1|exact F3|exact F3|lia]|]. split; [lia|]. split.
    { apply Rle_trans with (bpow radix2 6); [cbn; lra|apply bpow_le; lia]. }
    split.
    - intros i Hi. change (bpow radix2 2) with 4. destruct i as [|[|[|i]]]; [change (fval 0 v) with (B2R (b64_ofZ 1))|change (fval 1 v) with (B2R (b64_ofZ 3))|change (fval 2 v) with (B2R (b64_ofZ 3))|lia]; rewrite ?E1, ?E3; rewrite Rabs_right; lra.
    - exists 0%nat. split; [lia|]. change (fval 0 v) with (B2R (b64_ofZ 1)). rewrite E1. change (bpow radix2 0) with 1. rewrite Rabs_right; lra. }
  split; [exact Hm|]. split; [|split; vm_compute; reflexivity]. intros dbg c.
  destruct (@pow_spec 53 1024 prec53 prec_emax64 1 (-30) eq_refl ltac:(lia) ltac:(lia)) as [Fw Ew]. change (ieee_pow 53 1024 prec53 prec_emax64 1 (-30)) with x in Fw, Ew.
  rewrite Rmult_1_l in Ew.
  assert (u40 : 1024 * uround 53 <= bpow radix2 (-40)) by (unfold uround; change 1024 with (bpow radix2 10); rewrite <- bpow_plus; apply bpow_le; lia).
  assert (u0 : 0 < uround 53) by apply bpow_gt_0.
  assert (d40 : bpow radix2 (-40) <= bpow radix2 (-30)) by (apply bpow_le; lia). assert (d0 : bpow radix2 (-40) <= 1) by (change 1 with (bpow radix2 0); apply bpow_le; lia).
  apply (C91_set_normal 53 1024 prec53 prec_emax64 f g h pi L dbg (B2R x) 0 2 c v); [lia|lra|exact Hm| |].
  - apply C91_tolerance; [exact Fw|rewrite Ew; apply bpow_ge_0].
  - rewrite Ew. lra.
Qed.
