(** * Property theorems: normalised directions and lengths in floating point (C65) *)

From Coq Require Import List Arith Bool Lia Reals Lra ZArith.
From Flocq Require Import Core BinarySingleNaN.
From Verif Require Import Scalar Linal Result SpecReal VecR VecLemmas SpecIEEE SpecFloatErr ModelShapes ProofRound ProofIEEE ProofFloatErr ProofFloatNorm.
Local Open Scope R_scope.

(** ** C65: the stored direction of a line, ray and plane, and the direction of a
    segment, are finite unit vectors in the given direction up to a few rounding
    errors, for every IEEE format and dimension, if the components of the given
    vector are moderate. *)
Theorem C65_line_normalised :
  forall (p e : Z) (Hp : Prec_gt_0 p) (He : Prec_lt_emax p e) f g h pi, let S := IEEE p e Hp He f g h pi in
  forall (n : nat) (k K : Z) (o d : vec (binary_float p e) n),
    (INR n + 1) * uround p <= 1 / 32 -> moderate k K d ->
    let l := @line_make S n o d in
    l_origin l = o /\ finite_pt (l_dir l) /\
    rdist (vreal (l_dir l)) (rdirection (vreal d)) <= (INR n + 3) * uround p /\
    Rabs (rnorm (vreal (l_dir l)) - 1) <= (INR n + 3) * uround p.
Proof.
  intros p e Hp He f g h pi S n k K o d Hn Hm l. destruct (normalize_err f g h pi n d k K Hn Hm) as [H1 H2].
  destruct (length_err f g h pi n d k K Hn Hm) as (HN & _).
  split; [reflexivity|]. split; [exact H1|]. split; [exact H2|]. eapply Rle_trans; [|exact H2]. apply norm_near.
  apply rnorm_normalize. intros E. rewrite E, rnorm_rzero in HN. lra.
Qed.
Print Assumptions C65_line_normalised.

Theorem C65_ray_normalised :
  forall (p e : Z) (Hp : Prec_gt_0 p) (He : Prec_lt_emax p e) f g h pi, let S := IEEE p e Hp He f g h pi in
  forall (L : Linal S) (dbg : bool) (n : nat) (k K : Z) (o d : vec (binary_float p e) n) (r : ray S n),
    (INR n + 1) * uround p <= 1 / 32 -> moderate k K d ->
    @ray_make S L dbg n o d = Ok r ->
    r_origin r = o /\ finite_pt (r_dir r) /\
    rdist (vreal (r_dir r)) (rdirection (vreal d)) <= (INR n + 3) * uround p /\
    Rabs (rnorm (vreal (r_dir r)) - 1) <= (INR n + 3) * uround p.
Proof.
  intros p e Hp He f g h pi S L dbg n k K o d r Hn Hm E.
  assert (Er : r = @mkRay S n o (@normalize S n d)).
  { unfold ray_make in E. destruct (geo_assert dbg _); try discriminate. now apply Ok_inj in E. }
  subst r. exact (C65_line_normalised p e Hp He f g h pi n k K o d Hn Hm).
Qed.
Print Assumptions C65_ray_normalised.

Theorem C65_plane_normalised :
  forall (p e : Z) (Hp : Prec_gt_0 p) (He : Prec_lt_emax p e) f g h pi, let S := IEEE p e Hp He f g h pi in
  forall (k K : Z) (o d : vec (binary_float p e) 3),
    (INR 3 + 1) * uround p <= 1 / 32 -> moderate k K d ->
    let q := @plane_make S o d in
    p_origin q = o /\ finite_pt (p_normal q) /\
    rdist (vreal (p_normal q)) (rdirection (vreal d)) <= (INR 3 + 3) * uround p /\
    Rabs (rnorm (vreal (p_normal q)) - 1) <= (INR 3 + 3) * uround p.
Proof.
  intros p e Hp He f g h pi S k K o d Hn Hm q. exact (C65_line_normalised p e Hp He f g h pi 3 k K o d Hn Hm).
Qed.
Print Assumptions C65_plane_normalised.

(** Segments: length and direction with respect to the exact difference of the end
    points; [moderate] is required of the computed difference. *)
Theorem C65_segment :
  forall (p e : Z) (Hp : Prec_gt_0 p) (He : Prec_lt_emax p e) f g h pi, let S := IEEE p e Hp He f g h pi in
  forall (n : nat) (k K : Z) (s : segment S n),
    let src := g_source s : vec (binary_float p e) n in let tgt := g_target s : vec (binary_float p e) n in
    (INR n + 1) * uround p <= 1 / 32 -> finite_pt src -> finite_pt tgt ->
    moderate k K (@vsub S n tgt src : vec (binary_float p e) n) ->
    let len := @segment_length S n s : binary_float p e in let dir := @segment_direction S n s : vec (binary_float p e) n in
    is_finite len = true /\ Rabs (B2R len - rdist (vreal tgt) (vreal src)) <= (INR n + 3) * uround p * rdist (vreal tgt) (vreal src) /\
    finite_pt dir /\ rdist (vreal dir) (rdirection (rsub (vreal tgt) (vreal src))) <= (INR n + 6) * uround p.
Proof.
  intros p e Hp He f g h pi S n k K s src tgt Hn Fs Ft Hm len dir.
  destruct (normalize_err f g h pi n _ k K Hn Hm) as [H1 H2]. destruct (length_err f g h pi n _ k K Hn Hm) as (HN & Hl & _ & Herr).
  assert (Fd : finite_pt (@vsub S n tgt src : vec (binary_float p e) n)) by apply Hm.
  pose proof (sub_err f g h pi n tgt src Ft Fs Fd) as Hs. fold S in Hs, HN, Herr, H1, H2, Hl.
  set (c := vreal (@vsub S n tgt src : vec (binary_float p e) n)) in *. set (b := rsub (vreal tgt) (vreal src)) in *.
  change (rdist (vreal tgt) (vreal src)) with (rnorm b) in *. pose proof (@u_pos p) as Hu.
  assert (Hn1 : 1 <= INR n). { destruct Hm as (_ & _ & _ & _ & i & Hi & _). apply (le_INR 1). lia. }
  assert (Hu1 : uround p <= 1 / 64) by nra.
  pose proof (rnorm_nonneg b) as Hb0.
  assert (Z : forall x : vec R n, rdist x rzero = rnorm x).
  { intros x. unfold rdist. f_equal. unfold rsub, rzero. clear. induction n as [|m IH]; [destruct x; reflexivity|]. destruct x as [y x]. cbn. f_equal; [ring|apply IH]. }
  pose proof (rdist_triangle c b rzero) as T1. pose proof (rdist_triangle b c rzero) as T2. rewrite !Z in *. rewrite (rdist_sym b c) in T2.
  assert (Hb : 0 < rnorm b) by nra.
  split; [exact Hl|]. split; [|split; [exact H1|]].
  - set (N := rnorm b) in *. set (N' := rnorm c) in *. change (@segment_length S n s) with (@vlength S n (@vsub S n tgt src)) in len.
    set (w := INR n * uround p) in *. assert (Hw : 0 <= w) by (unfold w; nra). assert (Hw1 : w <= 1 / 32) by (unfold w; nra).
    assert (Ec : 55 / 100 * (INR n + 1) * uround p + 102 / 100 * uround p = 55 / 100 * w + 157 / 100 * uround p) by (unfold w; field). rewrite Ec in Herr.
    replace ((INR n + 3) * uround p * N) with (w * N + 3 * (uround p * N)) by (unfold w; ring).
    assert (HN' : N' <= N + 1 / 64 * N) by nra.
    assert (A : (55 / 100 * w + 157 / 100 * uround p) * N' <= (55 / 100 * w + 157 / 100 * uround p) * (N + 1 / 64 * N)) by (apply Rmult_le_compat_l; lra).
    assert (0 <= w * N) by nra. assert (0 <= uround p * N) by nra.
    apply Rabs_le_inv in Herr. fold len in Herr. apply Rabs_le. lra.
  - eapply Rle_trans; [apply (rdist_triangle _ (rdirection c))|]. apply Rle_trans with ((INR n + 3) * uround p + 3 * uround p); [|lra].
    apply Rplus_le_compat; [exact H2|]. eapply Rle_trans; [apply direction_perturb; assumption|].
    assert (rdist c b / rnorm b <= uround p); [|lra]. apply Rmult_le_reg_r with (rnorm b); [lra|]. unfold Rdiv. rewrite Rmult_assoc, Rinv_l by lra. lra.
Qed.
Print Assumptions C65_segment.

(** Without moderate components it fails.  If the square of a component overflows,
    the direction is the zero vector, and the assertion of Ray's constructor (a
    length above the tolerance) holds. *)
Theorem C65_overflow_refuted :
  forall (p e : Z) (Hp : Prec_gt_0 p) (He : Prec_lt_emax p e) f g h pi, let S := IEEE p e Hp He f g h pi in
  forall (L : Linal S) (dbg : bool) (n : nat) (K : Z) (o d : vec (binary_float p e) n) (i : nat),
    is_finite (leps L : binary_float p e) = true -> finite_pt d -> (i < n)%nat -> (e <= 2 * K)%Z -> bpow radix2 K <= Rabs (fval i d) ->
    exists r, @ray_make S L dbg n o d = Ok r /\ finite_pt (r_dir r) /\ vreal (r_dir r) = rzero /\
      vreal (l_dir (@line_make S n o d)) = rzero.
Proof.
  intros p e Hp He f g h pi S L dbg n K o d i Hle Hf Hi HK Hd.
  assert (Ho : bpow radix2 e <= rndf p e (fval i d * fval i d)).
  { pose proof (@emax_pos p e Hp He). rewrite <- (rnd_id (p := p) (e := e) (bpow radix2 e)) by (apply fmt_pow; lia). apply rnd_le.
    apply Rle_trans with (bpow radix2 (K + K)); [apply bpow_le; lia|]. rewrite bpow_plus, <- (Rabs_mult_self (fval i d)).
    apply Rmult_le_compat; try apply bpow_ge_0; exact Hd. }
  destruct (normalize_overflow f g h pi n d i Hf Hi Ho) as (E1 & E2 & E3). fold S in E1, E2, E3.
  exists (@mkRay S n o (@normalize S n d)). split; [|split; [exact E2|split; exact E3]]. unfold ray_make.
  assert (Ha : sltb (leps L) (@vlength S n d) = true).
  { rewrite E1. change (Bltb (leps L : binary_float p e) pinf = true). destruct (leps L : binary_float p e) as [?|?| |[] ? ? ?]; try discriminate Hle; reflexivity. }
  rewrite Ha. destruct dbg; reflexivity.
Qed.
Print Assumptions C65_overflow_refuted.

(** If the squares of all components vanish, no component of the direction is a
    finite number. *)
Theorem C65_underflow_refuted :
  forall (p e : Z) (Hp : Prec_gt_0 p) (He : Prec_lt_emax p e) f g h pi, let S := IEEE p e Hp He f g h pi in
  forall (L : Linal S) (n : nat) (k : Z) (o d : vec (binary_float p e) n),
    finite_pt d -> (2 * k <= 1 - e - p)%Z -> (forall i, (i < n)%nat -> Rabs (fval i d) <= bpow radix2 k) ->
    (forall i, (i < n)%nat -> is_finite (vnth (B754_zero false) i (l_dir (@line_make S n o d) : vec (binary_float p e) n)) = false) /\
    exists r, @ray_make S L false n o d = Ok r /\ forall i, (i < n)%nat -> is_finite (vnth (B754_zero false) i (r_dir r : vec (binary_float p e) n)) = false.
Proof.
  intros p e Hp He f g h pi S L n k o d Hf Hk Hd.
  assert (Hz : forall i, (i < n)%nat -> rndf p e (fval i d * fval i d) = 0).
  { intros i Hi. specialize (Hd i Hi). pose proof (@emax_pos p e Hp He) as Hpe. apply Rle_antisym; [|apply rnd_nonneg; nra].
    apply Rle_trans with (rndf p e (bpow radix2 (1 - e - p))).
    - apply rnd_le. rewrite <- Rabs_mult_self. apply Rle_trans with (bpow radix2 (k + k)); [|apply bpow_le; lia]. rewrite bpow_plus.
      apply Rmult_le_compat; try apply Rabs_pos; exact Hd.
    - right. apply (round_N_small_pos radix2 (fexpf p e) (fun t => negb (Z.even t)) _ (2 - e - p)).
      + replace (2 - e - p - 1)%Z with (1 - e - p)%Z by lia. split; [lra|]. apply bpow_lt. lia.
      + unfold fexpf, FLT_exp. lia. }
  destruct (normalize_underflow f g h pi n d Hf Hz) as (_ & _ & E). fold S in E. split; [exact E|].
  exists (@mkRay S n o (@normalize S n d)). split; [reflexivity|exact E].
Qed.
Print Assumptions C65_underflow_refuted.

(** non-vacuity: doubles; directions (3, 4, 12), (1e200, 1, 0) and (1e-200, 0, 0), roughly *)
Lemma C65_moderate_example : moderate (e := 1024) 0 4 (mk3 (b64_ofZ 3) (b64_ofZ 4) (b64_ofZ 12)).
Proof.
  assert (V : forall z, (Z.abs z < 2 ^ 53)%Z -> B2R (b64_ofZ z) = IZR z /\ is_finite (b64_ofZ z) = true).
  { intros z Hz. destruct (@pow_spec 53 1024 prec53 prec_emax64 z 0 Hz ltac:(lia) ltac:(lia)) as [F E]. split; [|exact F].
    unfold b64_ofZ, b64_pow. rewrite E. cbn. ring. }
  destruct (V 3%Z eq_refl) as [V3 F3], (V 4%Z eq_refl) as [V4 F4], (V 12%Z eq_refl) as [V12 F12].
  unfold moderate. split; [|split; [lia|split; [|split]]].
  - intros [|[|[|i]]] Hi; try lia; assumption.
  - apply Rle_trans with (bpow radix2 10); [cbn; lra|]. apply bpow_le. lia.
  - intros [|[|[|i]]] Hi; try lia; unfold fval; cbn [vnth mk3 fst snd].
    + rewrite V3. cbn. apply Rabs_le. lra.
    + rewrite V4. cbn. apply Rabs_le. lra.
    + rewrite V12. cbn. apply Rabs_le. lra.
  - exists 0%nat. split; [lia|]. unfold fval; cbn [vnth mk3 fst snd]. rewrite V3. cbn. rewrite Rabs_pos_eq; lra.
Qed.
Example C65_example : forall f g h pi, let S := B64 f g h pi in
  (INR 3 + 1) * uround 53 <= 1 / 32 /\
  (let l := l_dir (@line_make S 3 (mk3 (b64_ofZ 0) (b64_ofZ 0) (b64_ofZ 0)) (mk3 (b64_ofZ 3) (b64_ofZ 4) (b64_ofZ 12))) in
   seqb (vnth s0 0 l) (@sdiv S (b64_ofZ 3) (b64_ofZ 13)) = true) /\
  (let l := l_dir (@line_make S 3 (mk3 (b64_ofZ 0) (b64_ofZ 0) (b64_ofZ 0)) (mk3 (b64_pow 1 664) (b64_ofZ 1) (b64_ofZ 0))) in
   seqb (vnth s0 0 l) s0 = true /\ seqb (vnth s0 1 l) s0 = true /\ seqb (vnth s0 2 l) s0 = true) /\
  (let l := l_dir (@line_make S 3 (mk3 (b64_ofZ 0) (b64_ofZ 0) (b64_ofZ 0)) (mk3 (b64_pow 1 (-664)) (b64_ofZ 0) (b64_ofZ 0))) in
   is_finite (vnth s0 0 l : b64) = false /\ is_nan (vnth s0 1 l : b64) = true).
Proof.
  intros f g h pi S. split.
  - unfold uround. apply Rle_trans with ((INR 3 + 1) * bpow radix2 (-7)); [|cbn; lra].
    apply Rmult_le_compat_l; [cbn; lra|]. apply bpow_le. lia.
  - vm_compute. repeat split.
Qed.
