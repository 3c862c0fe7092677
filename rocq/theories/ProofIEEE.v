(** * Facts about binary floating point operations, for every format *)

From Coq Require Import Bool Lia ZArith Reals Lra Psatz.
From Flocq Require Import Core BinarySingleNaN.
From Verif Require Import Scalar ProofRound.
Local Open Scope R_scope.

Notation fin x := (is_finite x = true).

Section Ops.
Context {p e : Z} {Hp : Prec_gt_0 p} {He : Prec_lt_emax p e}.
Notation bf := (binary_float p e).
Notation rnd := (rndf p e).
Notation fmt := (fmtf p e).
Definition pinf : bf := B754_infinity false.
(** non-negative, possibly infinite *)
Definition nn (x : bf) : Prop := x = pinf \/ (fin x /\ 0 <= B2R x /\ Bsign x = false).
Definition lex (y x : bf) : Prop := x = pinf \/ (fin y /\ fin x /\ B2R y <= B2R x).

Notation fsub := (@Bminus p e Hp He mode_NE).
Notation fadd := (@Bplus p e Hp He mode_NE).
Notation fmul := (@Bmult p e Hp He mode_NE).
Notation fsqrt := (@Bsqrt p e Hp He mode_NE).

Lemma inf_B2SF (x : bf) s : B2SF x = SpecFloat.S754_infinity s -> x = B754_infinity s.
Proof. destruct x; cbn; congruence. Qed.
Lemma B2R_fmt (x : bf) : fmt (B2R x).
Proof. exact (generic_format_B2R p e x). Qed.

Lemma sub_spec x y : fin x -> fin y ->
  (fin (fsub x y) /\ B2R (fsub x y) = rnd (B2R x - B2R y) /\ Rabs (rnd (B2R x - B2R y)) < bpow radix2 e) \/
  ((exists s, fsub x y = B754_infinity s) /\ bpow radix2 e <= Rabs (rnd (B2R x - B2R y))).
Proof.
  intros Hx Hy. pose proof (Bminus_correct p e Hp He mode_NE x y Hx Hy) as H. cbn [round_mode] in H.
  change (round radix2 (SpecFloat.fexp p e) ZnearestE) with rnd in H.
  destruct (Rlt_bool_spec (Rabs (rnd (B2R x - B2R y))) (bpow radix2 e)) as [Hlt|Hge].
  - destruct H as (H1 & H2 & _). left. auto.
  - destruct H as (H & _). right. split; [|exact Hge]. exists (Bsign x). apply inf_B2SF. rewrite H. reflexivity.
Qed.

Lemma square_spec d : fin d ->
  (fmul d d = pinf /\ bpow radix2 e <= rnd (B2R d * B2R d)) \/
  (fin (fmul d d) /\ B2R (fmul d d) = rnd (B2R d * B2R d) /\ Bsign (fmul d d) = false).
Proof.
  intros Hd. pose proof (Bmult_correct p e Hp He mode_NE d d) as H. cbn [round_mode] in H.
  change (round radix2 (SpecFloat.fexp p e) ZnearestE) with rnd in H.
  assert (Hq : 0 <= rnd (B2R d * B2R d)) by (apply rnd_nonneg; nra). rewrite (Rabs_pos_eq _ Hq) in H.
  destruct (Rlt_bool_spec (rnd (B2R d * B2R d)) (bpow radix2 e)) as [Hlt|Hge].
  - destruct H as (H1 & H2 & H3). right. rewrite Hd in H2. split; [exact H2|]. split; [exact H1|].
    rewrite H3; [apply xorb_nilpotent|]. destruct (fmul d d); cbn in *; congruence.
  - left. split; [|exact Hge]. apply inf_B2SF. rewrite H, xorb_nilpotent. reflexivity.
Qed.
Lemma square_inf s : fmul (B754_infinity s) (B754_infinity s) = pinf.
Proof. destruct s; reflexivity. Qed.

Lemma Rabs_mult_self (x : R) : Rabs x * Rabs x = x * x.
Proof. rewrite <- Rabs_mult. apply Rabs_pos_eq. nra. Qed.

Definition sqd (x y : bf) : bf := fmul (fsub x y) (fsub x y).

Lemma sqd_nn x y : fin x -> fin y -> nn (sqd x y).
Proof.
  intros Hx Hy. unfold sqd. destruct (sub_spec x y Hx Hy) as [(Hf & _)|((s & ->) & _)].
  - destruct (square_spec _ Hf) as [(H & _)|(H1 & H2 & H3)]; [left; exact H|right]. split; [exact H1|]. split; [|exact H3].
    rewrite H2. apply rnd_nonneg. nra.
  - left. apply square_inf.
Qed.

(** the square depends on the distance of the arguments only *)
Lemma sqd_ext x y x' y' : fin x -> fin y -> fin x' -> fin y' -> Rabs (B2R x - B2R y) = Rabs (B2R x' - B2R y') -> sqd x y = sqd x' y'.
Proof.
  intros Hx Hy Hx' Hy' E.
  assert (Ea : Rabs (rnd (B2R x - B2R y)) = Rabs (rnd (B2R x' - B2R y'))) by (rewrite <- !rnd_abs, E; reflexivity).
  unfold sqd. destruct (sub_spec x y Hx Hy) as [(F1 & E1 & L1)|((s & E1) & L1)], (sub_spec x' y' Hx' Hy') as [(F2 & E2 & L2)|((s' & E2) & L2)].
  - assert (Es : B2R (fsub x y) * B2R (fsub x y) = B2R (fsub x' y') * B2R (fsub x' y')).
    { rewrite E1, E2. rewrite <- (Rabs_mult_self (rnd (B2R x - B2R y))), <- (Rabs_mult_self (rnd (B2R x' - B2R y'))), Ea. reflexivity. }
    destruct (square_spec _ F1) as [(-> & K1)|(A1 & A2 & A3)], (square_spec _ F2) as [(-> & K2)|(B1 & B2' & B3)]; try reflexivity.
    + exfalso. rewrite Es in K1. pose proof (abs_B2R_lt_emax _ _ (fmul (fsub x' y') (fsub x' y'))) as K. rewrite B2' in K. apply Rabs_lt_inv in K. lra.
    + exfalso. rewrite <- Es in K2. pose proof (abs_B2R_lt_emax _ _ (fmul (fsub x y) (fsub x y))) as K. rewrite A2 in K. apply Rabs_lt_inv in K. lra.
    + apply B2R_Bsign_inj; try assumption; [|congruence]. rewrite A2, B2', Es. reflexivity.
  - exfalso. lra.
  - exfalso. lra.
  - rewrite E1, E2, !square_inf. reflexivity.
Qed.

Lemma lex_refl x : nn x -> lex x x.
Proof. intros [->|(H & _)]; [left; reflexivity|right]. auto using Rle_refl. Qed.
Lemma lex_trans a b c : lex a b -> lex b c -> lex a c.
Proof.
  intros H1 [->|(Fb & Fc & H2)]; [left; reflexivity|]. destruct H1 as [->|(Fa & _ & H1)]; [discriminate Fb|]. right. repeat split; try assumption. lra.
Qed.

Lemma add_spec a b : nn a -> nn b -> nn (fadd a b) /\ lex a (fadd a b) /\ lex b (fadd a b).
Proof.
  intros [->|(Fa & Pa & Sa)] Hb.
  - assert (fadd pinf b = pinf) as ->.
    { destruct Hb as [->|(Fb & _)]; [reflexivity|]. destruct b; try discriminate; reflexivity. }
    unfold nn, lex. auto.
  - destruct Hb as [->|(Fb & Pb & Sb)].
    { assert (fadd a pinf = pinf) as -> by (destruct a; try discriminate; reflexivity). unfold nn, lex. auto. }
    pose proof (Bplus_correct p e Hp He mode_NE a b Fa Fb) as H. cbn [round_mode] in H.
    change (round radix2 (SpecFloat.fexp p e) ZnearestE) with rnd in H.
    destruct (Rlt_bool_spec (Rabs (rnd (B2R a + B2R b))) (bpow radix2 e)) as [Hlt|Hge].
    + destruct H as (H1 & H2 & H3).
      assert (Ha : B2R a <= rnd (B2R a + B2R b)) by (rewrite <- (rnd_id (B2R a)) at 1 by apply B2R_fmt; apply rnd_le; lra).
      assert (Hb' : B2R b <= rnd (B2R a + B2R b)) by (rewrite <- (rnd_id (B2R b)) at 1 by apply B2R_fmt; apply rnd_le; lra).
      split; [|split].
      * right. split; [exact H2|]. split; [rewrite H1; lra|]. rewrite H3, Sa, Sb.
        destruct (Rcompare_spec (B2R a + B2R b) 0); try reflexivity. exfalso. lra.
      * right. rewrite H1. auto.
      * right. rewrite H1. auto.
    + destruct H as (H & _). assert (fadd a b = pinf) as -> by (apply inf_B2SF; rewrite H, Sa; reflexivity). unfold nn, lex. auto.
Qed.

Lemma sqrt_spec x : nn x -> (x = pinf /\ fsqrt x = pinf) \/
  (fin x /\ fin (fsqrt x) /\ B2R (fsqrt x) = rnd (sqrt (B2R x)) /\ Bsign (fsqrt x) = false).
Proof.
  intros [->|(Fx & Px & Sx)]; [left; split; reflexivity|right].
  destruct (Bsqrt_correct p e Hp He mode_NE x) as (H1 & H2 & H3). cbn [round_mode] in H1.
  change (round radix2 (SpecFloat.fexp p e) ZnearestE) with rnd in H1.
  assert (Hf : fin (fsqrt x)) by (rewrite H2; destruct x as [| | |[] ? ? ?]; cbn in *; congruence).
  split; [exact Fx|]. split; [exact Hf|]. split; [exact H1|]. rewrite H3; [exact Sx|]. destruct (fsqrt x); cbn in *; congruence.
Qed.

Lemma lex_leb a b : nn a -> nn b -> lex a b <-> Bleb a b = true.
Proof.
  intros Ha Hb. split.
  - intros [->|(Fa & Fb & H)].
    + destruct Ha as [->|(Fa & _)]; [reflexivity|]. destruct a as [| | |[] ? ? ?]; try discriminate; reflexivity.
    + rewrite Bleb_correct by assumption. apply Rle_bool_true, H.
  - intros H. destruct Hb as [->|(Fb & _)]; [left; reflexivity|right]. destruct Ha as [->|(Fa & _)].
    + destruct b as [| | |[] ? ? ?]; discriminate.
    + split; [exact Fa|]. split; [exact Fb|]. rewrite Bleb_correct in H by assumption. destruct (Rle_bool_spec (B2R a) (B2R b)); [assumption|discriminate].
Qed.
Lemma lex_ltb a b : nn a -> nn b -> lex a b <-> Bltb b a = false.
Proof.
  intros Ha Hb. split.
  - intros [->|(Fa & Fb & H)].
    + destruct Ha as [->|(Fa & _)]; [reflexivity|]. destruct a as [| | |[] ? ? ?]; try discriminate; reflexivity.
    + rewrite Bltb_correct by assumption. apply Rlt_bool_false, H.
  - intros H. destruct Hb as [->|(Fb & _)]; [left; reflexivity|right]. destruct Ha as [->|(Fa & _)].
    + destruct b as [| | |[] ? ? ?]; discriminate.
    + split; [exact Fa|]. split; [exact Fb|]. rewrite Bltb_correct in H by assumption. destruct (Rlt_bool_spec (B2R b) (B2R a)); [discriminate|assumption].
Qed.

Lemma ltb_asym (a b : bf) : nn a -> nn b -> Bltb a b = true -> Bltb b a = false.
Proof.
  intros Na Nb A. apply lex_ltb; try assumption. destruct Nb as [->|(Fb & _)]; [left; reflexivity|right].
  destruct Na as [->|(Fa & _)]; [destruct b as [| | |[] ? ? ?]; discriminate|]. split; [exact Fa|]. split; [exact Fb|].
  rewrite Bltb_correct in A by assumption. destruct (Rlt_bool_spec (B2R a) (B2R b)); [lra|discriminate].
Qed.


Lemma rnd_change : round radix2 (SpecFloat.fexp p e) ZnearestE = rnd.
Proof. reflexivity. Qed.
Lemma fin_lt (x : bf) : Rabs (B2R x) < bpow radix2 e.
Proof. apply abs_B2R_lt_emax. Qed.
(** a value between two numbers of the format does not overflow *)
Lemma between_lt (x y : bf) r : B2R x <= r <= B2R y -> Rabs r < bpow radix2 e.
Proof. intros H. pose proof (fin_lt x) as A. pose proof (fin_lt y) as B. apply Rabs_lt_inv in A. apply Rabs_lt_inv in B. apply Rabs_lt. lra. Qed.

Lemma add_ok x y : fin x -> fin y -> Rabs (rnd (B2R x + B2R y)) < bpow radix2 e ->
  fin (fadd x y) /\ B2R (fadd x y) = rnd (B2R x + B2R y).
Proof.
  intros Hx Hy H. pose proof (Bplus_correct p e Hp He mode_NE x y Hx Hy) as K. cbn [round_mode] in K. rewrite rnd_change in K.
  rewrite Rlt_bool_true in K by exact H. destruct K as (A & B & _). auto.
Qed.
Lemma sub_ok x y : fin x -> fin y -> Rabs (rnd (B2R x - B2R y)) < bpow radix2 e ->
  fin (fsub x y) /\ B2R (fsub x y) = rnd (B2R x - B2R y).
Proof.
  intros Hx Hy H. pose proof (Bminus_correct p e Hp He mode_NE x y Hx Hy) as K. cbn [round_mode] in K. rewrite rnd_change in K.
  rewrite Rlt_bool_true in K by exact H. destruct K as (A & B & _). auto.
Qed.
Lemma mul_ok x y : fin x -> fin y -> Rabs (rnd (B2R x * B2R y)) < bpow radix2 e ->
  fin (fmul x y) /\ B2R (fmul x y) = rnd (B2R x * B2R y).
Proof.
  intros Hx Hy H. pose proof (Bmult_correct p e Hp He mode_NE x y) as K. cbn [round_mode] in K. rewrite rnd_change in K.
  rewrite Rlt_bool_true in K by exact H. destruct K as (A & B & _). rewrite Hx, Hy in B. auto.
Qed.
Notation fdiv := (@Bdiv p e Hp He mode_NE).
Lemma div_ok x y : fin x -> B2R y <> 0 -> Rabs (rnd (B2R x / B2R y)) < bpow radix2 e ->
  fin (fdiv x y) /\ B2R (fdiv x y) = rnd (B2R x / B2R y).
Proof.
  intros Hx Hy H. pose proof (Bdiv_correct p e Hp He mode_NE x y Hy) as K. cbn [round_mode] in K. rewrite rnd_change in K.
  rewrite Rlt_bool_true in K by exact H. destruct K as (A & B & _). rewrite Hx in B. auto.
Qed.

(** an overflowing difference is an infinity with the right sign *)
Lemma sub_ovf x y : fin x -> fin y -> bpow radix2 e <= Rabs (rnd (B2R x - B2R y)) ->
  fsub x y = B754_infinity (Rlt_bool (B2R x) (B2R y)).
Proof.
  intros Hx Hy H. pose proof (Bminus_correct p e Hp He mode_NE x y Hx Hy) as K. cbn [round_mode] in K. rewrite rnd_change in K.
  rewrite Rlt_bool_false in K by exact H. destruct K as (K1 & K2). apply inf_B2SF. rewrite K1.
  assert (N : B2R x <> B2R y).
  { intros E. rewrite E, Rminus_diag_eq, rnd_0, Rabs_R0 in H by reflexivity. pose proof (bpow_gt_0 radix2 e). lra. }
  assert (Q : if Bsign x then B2R x <= 0 else 0 <= B2R x) by (destruct x as [| | |[] ? ? ?]; cbn in *; try discriminate; try (destruct s; lra); [apply F2R_le_0|apply F2R_ge_0]; cbn; lia).
  assert (P : if Bsign y then B2R y <= 0 else 0 <= B2R y) by (destruct y as [| | |[] ? ? ?]; cbn in *; try discriminate; try (destruct s; lra); [apply F2R_le_0|apply F2R_ge_0]; cbn; lia).
  rewrite K2 in *. unfold binary_overflow, overflow_to_inf. destruct (Bsign y); cbn in *.
  - rewrite Rlt_bool_false by lra. reflexivity.
  - rewrite Rlt_bool_true by lra. reflexivity.
Qed.

(** comparing a computed difference with a number *)
Lemma sub_ltb c x y : fin c -> fin x -> fin y -> Bltb c (fsub x y) = Rlt_bool (B2R c) (rnd (B2R x - B2R y)).
Proof.
  intros Hc Hx Hy. destruct (Rlt_le_dec (Rabs (rnd (B2R x - B2R y))) (bpow radix2 e)) as [H|H].
  - destruct (sub_ok x y Hx Hy H) as (F & E). rewrite Bltb_correct by assumption. rewrite E. reflexivity.
  - rewrite (sub_ovf x y Hx Hy H). pose proof (fin_lt c) as Lc. apply Rabs_lt_inv in Lc. destruct (Rlt_bool_spec (B2R x) (B2R y)) as [A|A].
    + assert (rnd (B2R x - B2R y) <= 0) by (rewrite <- (@rnd_0 p e); apply rnd_le; lra). rewrite Rabs_left1 in H by assumption.
      rewrite Rlt_bool_false by lra. destruct c as [| | |[] ? ? ?]; try discriminate; reflexivity.
    + assert (0 <= rnd (B2R x - B2R y)) by (apply rnd_nonneg; lra). rewrite Rabs_pos_eq in H by assumption.
      rewrite Rlt_bool_true by lra. destruct c as [| | |[] ? ? ?]; try discriminate; reflexivity.
Qed.

(** 1, the largest number *)
Lemma emax_pos : (0 < p /\ p < e)%Z.
Proof. split; [exact Hp|exact He]. Qed.
Lemma fmt_pow k : (3 - e - p <= k)%Z -> fmt (bpow radix2 k).
Proof. intros H. apply generic_format_bpow. unfold fexpf, FLT_exp. pose proof emax_pos. lia. Qed.
Lemma one_spec : fin (ieee_pow p e Hp He 1 0) /\ B2R (ieee_pow p e Hp He 1 0) = 1.
Proof.
  pose proof emax_pos. pose proof (binary_normalize_correct p e Hp He mode_NE 1 0 false) as K. cbn zeta in K. cbn [round_mode] in K. rewrite rnd_change in K.
  replace (F2R _) with 1 in K by (unfold F2R; cbn; ring).
  rewrite (rnd_id 1) in K by exact (fmt_pow 0 ltac:(lia)).
  rewrite Rlt_bool_true in K by (rewrite Rabs_R1; apply (bpow_lt radix2 0 e); lia). destruct K as (A & B & _). auto.
Qed.
Lemma max_spec : fin (@Bmax_float p e Hp He) /\ B2R (@Bmax_float p e Hp He) = bpow radix2 e - bpow radix2 (e - p).
Proof.
  pose proof emax_pos as (P1 & P2). unfold Bmax_float. split; [rewrite is_finite_SF2B; reflexivity|]. rewrite B2R_SF2B. cbn. unfold F2R. cbn [Fnum Fexp].
  assert (E : Zpos (shift_pos (Z.to_pos p) 1) = Zpower radix2 p).
  { rewrite shift_pos_correct, Z.mul_1_r, <- two_power_pos_correct, two_power_pos_equiv, Z2Pos.id by lia. reflexivity. }
  assert (G : (1 < Zpower radix2 p)%Z) by (apply (Zpower_gt_1 radix2); lia).
  rewrite Pos2Z.inj_sub by (rewrite <- E in G; lia). rewrite E, minus_IZR, IZR_Zpower by lia.
  rewrite Rmult_minus_distr_r, <- bpow_plus. replace (p + (e - p))%Z with e by lia. ring.
Qed.
Lemma max_ge (x : bf) : - B2R (@Bmax_float p e Hp He) <= B2R x <= B2R (@Bmax_float p e Hp He).
Proof. destruct max_spec as (_ & ->). apply Rabs_le_inv. apply abs_B2R_le_emax_minus_prec, Hp. Qed.

(** numbers given by mantissa and exponent *)
Lemma pow_spec m k : (Z.abs m < 2 ^ p)%Z -> (3 - e - p <= k)%Z -> (k <= e - p)%Z ->
  fin (ieee_pow p e Hp He m k) /\ B2R (ieee_pow p e Hp He m k) = IZR m * bpow radix2 k.
Proof.
  intros Hm Hk Hk'. pose proof emax_pos as (P1 & P2). pose proof (binary_normalize_correct p e Hp He mode_NE m k false) as K. cbn zeta in K. cbn [round_mode] in K. rewrite rnd_change in K.
  change (F2R {| Fnum := m; Fexp := k |}) with (IZR m * bpow radix2 k) in K.
  assert (F : fmt (IZR m * bpow radix2 k)).
  { apply generic_format_FLT. exists (Float radix2 m k); [reflexivity|exact Hm|exact Hk]. }
  rewrite (rnd_id _ F) in K. rewrite Rlt_bool_true in K; [destruct K as (A & B & _); auto|].
  rewrite Rabs_mult, (Rabs_pos_eq (bpow _ _)) by apply bpow_ge_0. rewrite <- abs_IZR.
  apply Rlt_le_trans with (bpow radix2 p * bpow radix2 k).
  - apply Rmult_lt_compat_r; [apply bpow_gt_0|]. rewrite <- IZR_Zpower by lia. apply IZR_lt. exact Hm.
  - rewrite <- bpow_plus. apply bpow_le. lia.
Qed.
Lemma eqb_B2R (x y : bf) : fin y -> Beqb x y = true -> fin x /\ B2R x = B2R y.
Proof.
  intros Fy H. assert (Fx : fin x) by (destruct x as [| | |]; try reflexivity; destruct y as [| | |]; try discriminate; destruct s; discriminate).
  split; [exact Fx|]. rewrite Beqb_correct in H by assumption. destruct (Req_bool_spec (B2R x) (B2R y)); [assumption|discriminate].
Qed.
End Ops.
