(** * Transformations in floating point *)

From Coq Require Import List Bool Arith Lia ZArith Reals Lra Psatz.
From Flocq Require Import Core BinarySingleNaN.
From Verif Require Import Scalar Linal Result SpecReal VecR VecLemmas ModelShapes ModelBox ModelTransform
  SpecIEEE SpecFloatErr SpecFloatTess SpecFloatTransform ProofRound ProofIEEE ProofFloatErr ProofFloatNorm ProofFloatDist.
Import ListNotations.
Local Open Scope R_scope.

Section FT.
Context {p e : Z} {Hp : Prec_gt_0 p} {He : Prec_lt_emax p e}.
Notation bf := (binary_float p e).
Notation rnd := (rndf p e).
Notation fadd := (@Bplus p e Hp He mode_NE).
Notation fmul := (@Bmult p e Hp He mode_NE).
Notation u := (uround p).
Notation eta := (@eta p e).
Notation zero := (B754_zero false : bf).
Context (fc fs fa : bf -> bf) (fpi : bf).
Let S := IEEE p e Hp He fc fs fa fpi.

(** ** finite results come from finite operands, without overflow *)
Lemma ovf_not_fin (x : bf) m s : B2SF x = binary_overflow p e m s -> m = mode_NE -> is_finite x = false.
Proof. intros H ->. destruct x as [| | |? ? ? ?]; try reflexivity; destruct s; discriminate H. Qed.
Lemma add_fin x y : fin (fadd x y) -> fin x /\ fin y /\ B2R (fadd x y) = rnd (B2R x + B2R y).
Proof.
  intros F.
  assert (Fx : fin x /\ fin y).
  { destruct x as [sx|sx| |sx mx ex Hx], y as [sy|sy| |sy my ey Hy]; cbn in F |- *; try discriminate F; try (split; reflexivity).
    destruct (Bool.eqb sx sy); discriminate F. }
  destruct Fx as [Fx Fy]. split; [exact Fx|]. split; [exact Fy|].
  pose proof (Bplus_correct p e Hp He mode_NE x y Fx Fy) as K. cbn [round_mode] in K. rewrite rnd_change in K.
  destruct (Rlt_bool_spec (Rabs (rnd (B2R x + B2R y))) (bpow radix2 e)) as [H|H]; [exact (proj1 K)|].
  destruct K as [K _]. rewrite (ovf_not_fin _ _ _ K eq_refl) in F. discriminate F.
Qed.
Lemma mul_fin x y : fin (fmul x y) -> fin x /\ fin y /\ B2R (fmul x y) = rnd (B2R x * B2R y).
Proof.
  intros F.
  assert (Fx : fin x /\ fin y).
  { destruct x as [sx|sx| |sx mx ex Hx], y as [sy|sy| |sy my ey Hy]; cbn in F |- *; try discriminate F; split; reflexivity. }
  destruct Fx as [Fx Fy]. split; [exact Fx|]. split; [exact Fy|].
  pose proof (Bmult_correct p e Hp He mode_NE x y) as K. cbn [round_mode] in K. rewrite rnd_change in K.
  destruct (Rlt_bool_spec (Rabs (rnd (B2R x * B2R y))) (bpow radix2 e)) as [H|H]; [exact (proj1 K)|].
  rewrite (ovf_not_fin _ _ _ K eq_refl) in F. discriminate F.
Qed.

(** ** monotonicity of the rounded dot product *)
Lemma dot_between n : forall a lo x hi : vec bf n, finite_pt x ->
  (forall i, (i < n)%nat -> fval i lo <= fval i x <= fval i hi /\ (0 <= fval i a \/ fval i lo = fval i hi)) ->
  fin (@dot S n a lo) -> fin (@dot S n a hi) ->
  fin (@dot S n a x) /\ B2R (@dot S n a lo : bf) <= B2R (@dot S n a x : bf) <= B2R (@dot S n a hi : bf).
Proof.
  induction n as [|n IH]; intros a lo x hi Fx H Fl Fh; [cbn; split; [reflexivity|lra]|].
  destruct a as [a0 a], lo as [l0 lo], x as [x0 x], hi as [h0 hi].
  change (@dot S (Datatypes.S n) (a0, a) (l0, lo)) with (fadd (fmul a0 l0) (@dot S n a lo)) in *.
  change (@dot S (Datatypes.S n) (a0, a) (h0, hi)) with (fadd (fmul a0 h0) (@dot S n a hi)) in *.
  change (@dot S (Datatypes.S n) (a0, a) (x0, x)) with (fadd (fmul a0 x0) (@dot S n a x)) in *.
  pose proof Fl as Fl'. pose proof Fh as Fh'.
  apply add_fin in Fl as (Fl0 & Flt & El). apply add_fin in Fh as (Fh0 & Fht & Eh).
  apply mul_fin in Fl0 as (Fa & Fl0 & El0). apply mul_fin in Fh0 as (_ & Fh0 & Eh0).
  destruct (IH a lo x hi (fun i Hi => Fx (Datatypes.S i) ltac:(lia)) (fun i Hi => H (Datatypes.S i) ltac:(lia)) Flt Fht) as (Fxt & Hxt).
  destruct (H 0%nat ltac:(lia)) as (H0 & H1). pose proof (Fx 0%nat ltac:(lia)) as Fx0. unfold fval in H0, H1. cbn [vnth fst] in H0, H1, Fx0.
  assert (M : B2R a0 * B2R l0 <= B2R a0 * B2R x0 <= B2R a0 * B2R h0).
  { destruct H1 as [H1|H1]; [split; apply Rmult_le_compat_l; lra|]. replace (B2R x0) with (B2R l0) by lra. rewrite H1. lra. }
  assert (Rm : rnd (B2R a0 * B2R l0) <= rnd (B2R a0 * B2R x0) <= rnd (B2R a0 * B2R h0)) by (split; apply rnd_le; lra).
  destruct (@mul_ok p e Hp He a0 x0 Fa Fx0) as (Fm & Em).
  { apply (@between_lt p e (fmul a0 l0) (fmul a0 h0)). rewrite El0, Eh0. exact Rm. }
  assert (Ra : rnd (B2R (fmul a0 l0) + B2R (@dot S n a lo : bf)) <= rnd (B2R (fmul a0 x0) + B2R (@dot S n a x : bf)) <= rnd (B2R (fmul a0 h0) + B2R (@dot S n a hi : bf))).
  { rewrite Em, El0, Eh0. split; apply rnd_le; lra. }
  destruct (@add_ok p e Hp He (fmul a0 x0) (@dot S n a x) Fm Fxt) as (Fs & Es).
  { apply (@between_lt p e (fadd (fmul a0 l0) (@dot S n a lo)) (fadd (fmul a0 h0) (@dot S n a hi))). rewrite El, Eh. exact Ra. }
  split; [exact Fs|]. rewrite El, Eh, Es. exact Ra.
Qed.

(** ** the coordinates of a transformed point *)
Definition hrow (i : nat) (X : hmat bf) : vec bf 4 := vnth (mk4 zero zero zero zero) i X.
Lemma vnth_vbuild {T} (d : T) n f i : (i < n)%nat -> vnth d i (vbuild n f) = f i.
Proof. revert f i. induction n as [|n IH]; intros f i Hi; [lia|]. destruct i as [|i]; [reflexivity|]. cbn. apply (IH (fun j => f (Datatypes.S j))). lia. Qed.
Lemma transform_coord n (v : vec bf n) (X : hmat bf) i : (i < n)%nat -> (n <= 3)%nat ->
  vnth zero i (@transform_vec S n v X : vec bf n) = @dot S 4 (hrow i X) (@to_hvec S n v).
Proof.
  intros Hi Hn. unfold transform_vec, to_vec. etransitivity; [apply vnth_vbuild; exact Hi|].
  unfold hmul. assert (H4 : (i < 4)%nat) by lia. exact (vnth_vmap (mk4 zero zero zero zero) zero (fun row => @dot S 4 row (@to_hvec S n v)) 4 i X H4).
Qed.
Notation one := (ieee_pow p e Hp He 1 0).
Lemma hvec_coord n (v : vec bf n) i : (n = 2 \/ n = 3)%nat -> (i < 4)%nat ->
  vnth zero i (@to_hvec S n v : vec bf 4) = if (i <? n)%nat then vnth zero i v else if (i =? 3)%nat then one else zero.
Proof.
  intros [->| ->] Hi; destruct i as [|[|[|[|i]]]]; try lia; try reflexivity; destruct v as (? & ? & ?); try reflexivity; destruct v as (? & ?); reflexivity.
Qed.
Lemma hvec_finite n (v : vec bf n) : (n = 2 \/ n = 3)%nat -> finite_pt v -> finite_pt (@to_hvec S n v : vec bf 4).
Proof.
  intros Hn F i Hi. rewrite (hvec_coord n v i Hn Hi). destruct (Nat.ltb_spec i n); [apply F; lia|].
  destruct (Nat.eqb_spec i 3); [exact (proj1 (@one_spec p e Hp He))|reflexivity].
Qed.

Lemma row_terms n (v : vec bf n) (X : hmat bf) i : (n = 2 \/ n = 3)%nat ->
  rdot (vreal (hrow i X)) (vreal (@to_hvec S n v : vec bf 4)) = image_coord X v i /\
  rdot (rabsv (vreal (hrow i X))) (rabsv (vreal (@to_hvec S n v : vec bf 4))) = image_terms X v i.
Proof.
  intros Hn. pose proof (proj2 (@one_spec p e Hp He)) as E1. unfold image_coord, image_terms, entry, fval, total, hrow, rabsv, vreal.
  set (r := vnth (mk4 zero zero zero zero) i X).
  destruct r as (r0 & r1 & r2 & r3 & []). destruct Hn as [->| ->].
  - destruct v as (x & y & []). cbn -[ieee_pow B2R]. rewrite !Rabs_mult, !E1, Rabs_R1. change (B2R zero) with 0. rewrite Rabs_R0. split; ring.
  - destruct v as (x & y & z & []). cbn -[ieee_pow B2R]. rewrite !Rabs_mult, !E1, Rabs_R1. split; ring.
Qed.

Lemma transform_err n (v : vec bf n) (X : hmat bf) : (n = 2 \/ n = 3)%nat -> 5 * u <= 1 / 32 -> finite_rows n X -> finite_pt v ->
  (forall i, (i < n)%nat -> image_terms X v i <= bpow radix2 (e - 2)) ->
  let x := @transform_vec S n v X : vec bf n in
  finite_pt x /\ forall i, (i < n)%nat -> Rabs (fval i x - image_coord X v i) <= 6 * u * image_terms X v i + 5 * eta.
Proof.
  intros Hn Hu5 FX Fv HB x. pose proof (@u_pos p) as Hu. pose proof (@eta_pos p e) as Hh.
  assert (Hn3 : (n <= 3)%nat) by lia.
  assert (K : forall i, (i < n)%nat -> fin (vnth zero i x) /\ Rabs (fval i x - image_coord X v i) <= 6 * u * image_terms X v i + 5 * eta).
  { intros i Hi. unfold fval. unfold x. rewrite (transform_coord n v X i Hi Hn3).
    destruct (row_terms n v X i Hn) as [E1 E2]. 
    destruct (dot_err fc fs fa fpi 4 (hrow i X) (@to_hvec S n v)) as (F & D).
    - cbn. lra.
    - intros j Hj. exact (FX i j Hi Hj).
    - apply hvec_finite; assumption.
    - fold S. rewrite E2. apply HB, Hi.
    - fold S in F, D. rewrite E1, E2 in D. split; [exact F|]. eapply Rle_trans; [exact D|].
      assert (T0 : 0 <= image_terms X v i) by (rewrite <- E2; apply absdot_nonneg).
      assert (P5 : (1 + u) ^ (4 + 1) - 1 <= 6 * u).
      { eapply Rle_trans; [apply pow_1_plus_32; cbn; lra|]. cbn. lra. }
      assert (P4 : (1 + u) ^ 4 <= 5 / 4).
      { pose proof (pow_1_plus_32 u 4) as Q. assert (Q' : (1 + u) ^ 4 - 1 <= 32 / 31 * (INR 4 * u)) by (apply Q; cbn; lra). cbn [INR] in Q'. lra. }
      assert (T1 : ((1 + u) ^ (4 + 1) - 1) * image_terms X v i <= 6 * u * image_terms X v i) by (apply Rmult_le_compat_r; assumption).
      assert (T2 : INR 4 * (1 + u) ^ 4 * eta <= 5 * eta) by (apply Rmult_le_compat_r; [lra|]; cbn [INR]; lra). lra. }
  split; intros i Hi; apply K, Hi.
Qed.

Lemma transform_between n (X : hmat bf) (lo hi x : vec bf n) : (n = 2 \/ n = 3)%nat ->
  (forall i j, (i < n)%nat -> (j < n)%nat -> 0 <= B2R (entry i j X)) ->
  finite_pt (@transform_vec S n lo X : vec bf n) -> finite_pt (@transform_vec S n hi X : vec bf n) ->
  in_fbox lo hi x -> in_fbox (@transform_vec S n lo X : vec bf n) (@transform_vec S n hi X : vec bf n) (@transform_vec S n x X : vec bf n).
Proof.
  intros Hn HX Fl Fh (Fx & Hx). assert (Hn3 : (n <= 3)%nat) by lia.
  assert (K : forall i, (i < n)%nat -> fin (vnth zero i (@transform_vec S n x X : vec bf n)) /\
     fval i (@transform_vec S n lo X : vec bf n) <= fval i (@transform_vec S n x X : vec bf n) <= fval i (@transform_vec S n hi X : vec bf n)).
  { intros i Hi. pose proof (Fl i Hi) as Fl'. pose proof (Fh i Hi) as Fh'. unfold fval.
    rewrite (transform_coord n lo X i Hi Hn3) in *. rewrite (transform_coord n hi X i Hi Hn3) in *. rewrite (transform_coord n x X i Hi Hn3) in *.
    apply dot_between; [apply hvec_finite; assumption| |exact Fl'|exact Fh'].
    intros j Hj. unfold fval. rewrite !(hvec_coord n _ j Hn Hj). destruct (Nat.ltb_spec j n) as [Hjn|Hjn].
    - split; [exact (Hx j Hjn)|left; exact (HX i j Hi Hjn)].
    - split; [lra|right; reflexivity]. }
  split; intros i Hi; apply K, Hi.
Qed.
End FT.
