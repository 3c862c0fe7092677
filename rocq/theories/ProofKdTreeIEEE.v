(** * KdTree::nearest in floating point, for every format *)

From Coq Require Import List Arith Bool Lia Permutation ZArith Reals Lra Psatz.
From Flocq Require Import Core BinarySingleNaN.
From Verif Require Import Scalar Linal Result ModelKdTree SpecKdTree SpecIEEE VecLemmas ProofKdTree ProofRound ProofIEEE.
Import ListNotations.
Local Open Scope R_scope.

(** ** vectors *)
Section Vectors.
  Context {pr ex : Z} {Hpr : Prec_gt_0 pr} {Hex : Prec_lt_emax pr ex} (H2 : (2 < pr)%Z).
  Notation bf := (binary_float pr ex).
  Notation rnd := (rndf pr ex).
  Notation fmt := (fmtf pr ex).
  Notation fsub := (@Bminus pr ex Hpr Hex mode_NE).
  Notation fadd := (@Bplus pr ex Hpr Hex mode_NE).
  Notation fmul := (@Bmult pr ex Hpr Hex mode_NE).
  Notation fsqrt := (@Bsqrt pr ex Hpr Hex mode_NE).
  Context (f g h : bf -> bf) (fpi : bf).
  Let S := IEEE pr ex Hpr Hex f g h fpi.

  Definition finv {n} (v : vec bf n) : Prop := forall i, is_finite (vnth (@s0 S) i v) = true.
  Lemma finv_tl {n} (v : vec bf (Datatypes.S n)) : finv v -> finv (snd v).
  Proof. intros H i. exact (H (Datatypes.S i)). Qed.

  Lemma sqsum_spec n : forall (acc : bf) (a b : vec bf n), nn acc -> finv a -> finv b ->
    nn (@sqsum S acc n a b) /\ lex acc (@sqsum S acc n a b) /\
    forall i, (i < n)%nat -> lex (sqd (vnth (@s0 S) i a) (vnth (@s0 S) i b)) (@sqsum S acc n a b).
  Proof.
    induction n as [|n IH]; intros acc a b Hacc Ha Hb.
    - cbn. split; [exact Hacc|]. split; [apply lex_refl, Hacc|]. intros i Hi. exfalso. lia.
    - pose proof (Ha 0%nat) as Ha0. pose proof (Hb 0%nat) as Hb0. cbn in Ha0, Hb0.
      pose proof (sqd_nn (fst a) (fst b) Ha0 Hb0) as Hs. destruct (add_spec acc _ Hacc Hs) as (A1 & A2 & A3).
      destruct (IH _ (snd a) (snd b) A1 (finv_tl a Ha) (finv_tl b Hb)) as (I1 & I2 & I3).
      change (@sqsum S acc (Datatypes.S n) a b) with (@sqsum S (fadd acc (sqd (fst a) (fst b))) n (snd a) (snd b)).
      split; [exact I1|]. split; [apply (lex_trans _ _ _ A2 I2)|]. intros [|i] Hi.
      + exact (lex_trans _ _ _ A3 I2).
      + apply (I3 i). lia.
  Qed.
  Lemma sqsum_ext n : forall (acc : bf) (a b a' b' : vec bf n), finv a -> finv b -> finv a' -> finv b' ->
    (forall i, (i < n)%nat -> Rabs (B2R (vnth (@s0 S) i a) - B2R (vnth (@s0 S) i b)) = Rabs (B2R (vnth (@s0 S) i a') - B2R (vnth (@s0 S) i b'))) ->
    @sqsum S acc n a b = @sqsum S acc n a' b'.
  Proof.
    induction n as [|n IH]; intros acc a b a' b' Ha Hb Ha' Hb' H; [reflexivity|].
    change (@sqsum S acc (Datatypes.S n) a b) with (@sqsum S (fadd acc (sqd (fst a) (fst b))) n (snd a) (snd b)).
    change (@sqsum S acc (Datatypes.S n) a' b') with (@sqsum S (fadd acc (sqd (fst a') (fst b'))) n (snd a') (snd b')).
    rewrite (sqd_ext (fst a) (fst b) (fst a') (fst b') (Ha 0%nat) (Hb 0%nat) (Ha' 0%nat) (Hb' 0%nat) (H 0%nat (Nat.lt_0_succ n))).
    apply IH; try (apply finv_tl; assumption). intros i Hi. apply (H (Datatypes.S i)). lia.
  Qed.

  Definition V (b : bf) : Prop := nn b /\ (b = pinf \/ exists s, fmt s /\ 0 <= s /\ B2R b = rnd (sqrt s)).

  Lemma s0_nn : nn (@s0 S).
  Proof. right. cbn. repeat split. lra. Qed.
  Lemma dist_V n (a b : vec bf n) : finv a -> finv b -> V (@kd_distance S n a b).
  Proof.
    intros Ha Hb. destruct (sqsum_spec n (@s0 S) a b s0_nn Ha Hb) as (N & _ & _). unfold kd_distance.
    change (@ssqrt S) with fsqrt. destruct (sqrt_spec _ N) as [(E1 & E2)|(F1 & F2 & E2 & S2)].
    - rewrite E2. split; left; reflexivity.
    - split.
      + right. split; [exact F2|]. split; [|exact S2]. rewrite E2. apply rnd_nonneg, sqrt_pos.
      + right. eexists. split; [apply B2R_fmt|]. split; [|exact E2].
        destruct N as [E|(_ & P & _)]; [rewrite E in F1; discriminate|exact P].
  Qed.
  Lemma dist_sym n (a b : vec bf n) : finv a -> finv b -> @kd_distance S n a b = @kd_distance S n b a.
  Proof. intros Ha Hb. unfold kd_distance. f_equal. apply sqsum_ext; try assumption. intros i Hi. apply Rabs_minus_sym. Qed.

  (** ** the pruning test *)
  Lemma prune_bf n (q p x : vec bf n) i (bd : bf) : (i < n)%nat -> finv q -> finv p -> finv x -> V bd ->
    @Bltb pr ex (vnth (@s0 S) i x) (vnth (@s0 S) i p) = negb (Bltb (fsub (vnth (@s0 S) i q) (vnth (@s0 S) i p)) (B754_zero false)) ->
    Bltb (Babs (fsub (vnth (@s0 S) i q) (vnth (@s0 S) i p))) bd = false ->
    lex bd (@kd_distance S n x q).
  Proof.
    intros Hi Hq Hp Hx (Nb & Hbd) Hside Hbound.
    specialize (Hq i) as Fq. specialize (Hp i) as Fp. specialize (Hx i) as Fx.
    destruct (sqsum_spec n (@s0 S) x q s0_nn Hx Hq) as (N & _ & Hsum). specialize (Hsum i Hi).
    unfold kd_distance. change (@ssqrt S) with fsqrt. set (sum := @sqsum S (@s0 S) n x q) in *.
    set (qi := vnth (@s0 S) i q) in *. set (pi := vnth (@s0 S) i p) in *. set (xi := vnth (@s0 S) i x) in *. clearbody qi pi xi.
    destruct (sqrt_spec _ N) as [(_ & E)|(Fs & Fr & Er & _)]; [left; exact E|].
    assert (Psum : 0 <= B2R sum) by (destruct N as [E|(_ & P & _)]; [rewrite E in Fs; discriminate|exact P]).
    (* the computed difference is finite *)
    destruct Hsum as [E|(Fsq & _ & Hle)]; [rewrite E in Fs; discriminate|].
    assert (Hd : fin (fsub xi qi) /\ B2R (fsub xi qi) = rnd (B2R xi - B2R qi) /\ Rabs (rnd (B2R xi - B2R qi)) < bpow radix2 ex).
    { destruct (sub_spec xi qi Fx Fq) as [H|((s & E) & _)]; [exact H|exfalso]. unfold sqd in Fsq. rewrite E, square_inf in Fsq. discriminate Fsq. }
    destruct Hd as (Fd & Ed & Ld).
    assert (Esq : B2R (sqd xi qi) = rnd (rnd (B2R xi - B2R qi) * rnd (B2R xi - B2R qi))).
    { unfold sqd in *. destruct (square_spec _ Fd) as [(E & _)|(_ & E & _)]; [rewrite E in Fsq; discriminate|]. rewrite E, Ed. reflexivity. }
    (* zero bound *)
    assert (Pr : 0 <= B2R (fsqrt sum)) by (rewrite Er; apply rnd_nonneg, sqrt_pos).
    (* the splitting coordinate separates *)
    assert (Hsep : Rabs (B2R qi - B2R pi) <= Rabs (B2R xi - B2R qi) \/ (fin (fsub qi pi) /\ B2R (fsub qi pi) = 0)).
    { assert (Hlt : forall a b : bf, fin a -> fin b -> Bltb a b = Rlt_bool (B2R a) (B2R b)) by (intros; apply Bltb_correct; assumption).
      rewrite Hlt in Hside by assumption.
      destruct (Rlt_le_dec (B2R qi - B2R pi) 0) as [Hneg|Hpos].
      - (* q left of p *)
        destruct (Bltb (fsub qi pi) (B754_zero false)) eqn:Ec; cbn in Hside.
        + left. destruct (Rlt_bool_spec (B2R xi) (B2R pi)); [discriminate|]. rewrite !Rabs_left1 by lra.
          unfold Rabs. destruct (Rcase_abs (B2R xi - B2R qi)); lra.
        + right. destruct (sub_spec qi pi Fq Fp) as [(F & E & _)|((s & E) & L)].
          * split; [exact F|]. rewrite Hlt in Ec by (exact F || reflexivity). cbn in Ec. destruct (Rlt_bool_spec (B2R (fsub qi pi)) 0); [discriminate|].
            apply Rle_antisym; [|assumption]. rewrite E, <- (@rnd_0 pr ex). apply rnd_le. lra.
          * exfalso. rewrite E in Ec. destruct s; [discriminate Ec|].
            pose proof (Bminus_correct pr ex Hpr Hex mode_NE qi pi Fq Fp) as K. cbn [round_mode] in K.
            change (round radix2 (SpecFloat.fexp pr ex) ZnearestE) with rnd in K.
            rewrite Rlt_bool_false in K by exact L. destruct K as (K1 & K2). rewrite E in K1. cbn in K1. injection K1 as K1.
            assert (Q : 0 <= B2R qi) by (destruct qi as [| | |[] ? ? ?]; cbn in *; try discriminate; try lra; apply F2R_ge_0; cbn; lia).
            assert (P : B2R pi <= 0).
            { rewrite <- K1 in K2. destruct pi as [| | |[] ? ? ?]; cbn in *; try discriminate; try lra. apply F2R_le_0; cbn; lia. }
            lra.
      - (* q right of p *)
        destruct (Bltb (fsub qi pi) (B754_zero false)) eqn:Ec; cbn in Hside.
        + exfalso. destruct (sub_spec qi pi Fq Fp) as [(F & E & _)|((s & E) & L)].
          * rewrite Hlt in Ec by (exact F || reflexivity). cbn in Ec. destruct (Rlt_bool_spec (B2R (fsub qi pi)) 0); [|discriminate].
            rewrite E in H. pose proof (@rnd_nonneg pr ex _ _ Hpos). lra.
          * rewrite E in Ec. destruct s; [|discriminate Ec].
            pose proof (Bminus_correct pr ex Hpr Hex mode_NE qi pi Fq Fp) as K. cbn [round_mode] in K.
            change (round radix2 (SpecFloat.fexp pr ex) ZnearestE) with rnd in K.
            rewrite Rlt_bool_false in K by exact L. destruct K as (K1 & K2). rewrite E in K1. cbn in K1. injection K1 as K1.
            assert (Q : B2R qi <= 0) by (destruct qi as [| | |[] ? ? ?]; cbn in *; try discriminate; try lra; apply F2R_le_0; cbn; lia).
            assert (P : 0 <= B2R pi).
            { rewrite <- K1 in K2. destruct pi as [| | |[] ? ? ?]; cbn in *; try discriminate; try lra. apply F2R_ge_0; cbn; lia. }
            assert (B2R qi - B2R pi = 0) as Z by lra. rewrite Z, rnd_0, Rabs_R0 in L. pose proof (bpow_gt_0 radix2 ex). lra.
        + left. destruct (Rlt_bool_spec (B2R xi) (B2R pi)); [|discriminate]. rewrite (Rabs_pos_eq (B2R qi - B2R pi)) by lra.
          unfold Rabs. destruct (Rcase_abs (B2R xi - B2R qi)); lra. }
    (* the bound is at most the computed difference *)
    assert (Hbound' : fin bd /\ B2R bd <= Rabs (rnd (B2R xi - B2R qi))).
    { assert (Fdq : fin (fsub qi pi) /\ Rabs (B2R (fsub qi pi)) <= Rabs (rnd (B2R xi - B2R qi))).
      { destruct Hsep as [Hsep|(F & Z)].
        - assert (K : Rabs (rnd (B2R qi - B2R pi)) <= Rabs (rnd (B2R xi - B2R qi))) by (rewrite <- !rnd_abs; apply rnd_le, Hsep).
          destruct (sub_spec qi pi Fq Fp) as [(F & E & _)|(_ & L)]; [|exfalso; lra]. rewrite E. auto.
        - split; [exact F|]. rewrite Z, Rabs_R0. apply Rabs_pos. }
      destruct Fdq as (F & Hdq).
      destruct Nb as [E|(Fb & _)].
      - exfalso. rewrite E in Hbound. destruct (fsub qi pi) as [| | |[] ? ? ?]; discriminate.
      - split; [exact Fb|]. rewrite Bltb_correct in Hbound; [|rewrite is_finite_Babs; exact F|exact Fb]. rewrite B2R_Babs in Hbound.
        destruct (Rlt_bool_spec (Rabs (B2R (fsub qi pi))) (B2R bd)); [discriminate|]. lra. }
    destruct Hbound' as (Fb & Hb). right. split; [exact Fb|]. split; [exact Fr|]. rewrite Er.
    destruct Hbd as [E|(s & Fs' & Ps & Es)]; [rewrite E in Fb; discriminate|].
    assert (Pb : 0 <= B2R bd) by (destruct Nb as [E|(_ & P & _)]; [rewrite E in Fb; discriminate|exact P]).
    eapply Rle_trans; [exact (sqrt_square_ge H2 s (B2R bd) Fs' Ps Es)|].
    apply rnd_le, sqrt_le_1.
    - apply rnd_nonneg. nra.
    - exact Psum.
    - eapply Rle_trans; [|exact Hle]. rewrite Esq. apply rnd_le.
      rewrite <- (Rabs_mult_self (rnd (B2R xi - B2R qi))). nra.
  Qed.
End Vectors.

Lemma cdist_fold {S : Scalar} n : forall (acc : S) (a b : vec S n),
  fold_left (fun acc i => let d := ssub (vnth s0 i a) (vnth s0 i b) in sadd acc (smul d d)) (seq 0 n) acc = sqsum acc a b.
Proof.
  induction n as [|n IH]; intros acc a b; [reflexivity|]. cbn [sqsum]. rewrite <- IH. cbn [seq fold_left]. rewrite <- seq_shift.
  change (vnth s0 0 a) with (fst a). change (vnth s0 0 b) with (fst b). generalize (sadd acc (smul (ssub (fst a) (fst b)) (ssub (fst a) (fst b)))) as z.
  generalize (seq 0 n) as l. clear. induction l as [|i l IHl]; intros z; [reflexivity|]. cbn [map fold_left]. change (vnth s0 (Datatypes.S i) a) with (vnth s0 i (snd a)). change (vnth s0 (Datatypes.S i) b) with (vnth s0 i (snd b)). apply IHl.
Qed.
Lemma cdist_eq {S : Scalar} n (a b : vec S n) : cdist a b = kd_distance a b.
Proof. unfold cdist, kd_distance. rewrite cdist_fold. reflexivity. Qed.

(** ** the tree, for any [operator==] *)
Section Any.
  Context {S : Scalar} (L : Linal S) (n : nat) {P : Type} (SZ : nat).

  Lemma insert_any (t : @tree S n P) : forall d p v t' b, ordered n SZ d t -> insertHelper L n SZ t p v d = (t', b) ->
    ordered n SZ d t' /\
    ((b = true /\ Permutation (elements n t') ((p, v) :: elements n t)) \/
     (b = false /\ t' = t /\ exists x, In x (tpts n t) /\ veq L x p = true)).
  Proof.
    induction t as [|q w l IHl r IHr]; intros d p v t' b Ho H.
    - cbn in H. injection H as <- <-. split; [cbn; repeat split; intros x []|]. left. auto.
    - cbn [insertHelper] in H. pose proof Ho as (Hl & Hr & Ol & Or). destruct (veq L q p) eqn:E.
      { injection H as <- <-. split; [assumption|]. right. split; [reflexivity|]. split; [reflexivity|]. exists q. split; [left; reflexivity|exact E]. }
      destruct (sltb (vnth s0 (d mod n) p) (vnth s0 (d mod n) q)) eqn:E2.
      + destruct (insertHelper L n SZ l p v (next_depth SZ d)) as [l' b'] eqn:El. injection H as <- <-.
        destruct (IHl _ _ _ _ _ Ol El) as [Ol' [(-> & Hp)|(-> & -> & x & Hx & Ex)]].
        * split.
          -- split; [|auto]. intros x Hx. unfold tpts in Hx. apply (Permutation_in x (Permutation_map fst Hp)) in Hx.
             cbn in Hx. destruct Hx as [<-|Hx]; auto.
          -- left. split; [reflexivity|]. cbn. rewrite Hp. cbn. apply perm_swap.
        * split; [assumption|]. right. split; [reflexivity|]. split; [reflexivity|]. exists x. split; [|exact Ex].
          rewrite tpts_node. right. apply in_or_app. left. exact Hx.
      + destruct (insertHelper L n SZ r p v (next_depth SZ d)) as [r' b'] eqn:Er. injection H as <- <-.
        destruct (IHr _ _ _ _ _ Or Er) as [Or' [(-> & Hp)|(-> & -> & x & Hx & Ex)]].
        * split.
          -- split; [auto|split; [|auto]]. intros x Hx. unfold tpts in Hx. apply (Permutation_in x (Permutation_map fst Hp)) in Hx.
             cbn in Hx. destruct Hx as [<-|Hx]; auto.
          -- left. split; [reflexivity|]. cbn. rewrite Hp. rewrite <- Permutation_middle. apply perm_swap.
        * split; [assumption|]. right. split; [reflexivity|]. split; [reflexivity|]. exists x. split; [|exact Ex].
          rewrite tpts_node. right. apply in_or_app. right. exact Hx.
  Qed.

  Record inva (hist : list (op S n P)) : Prop := {
    ia_ord : ordered n SZ 0 (root (run L SZ hist));
    ia_acc : Permutation (elements n (root (run L SZ hist))) (accepted L SZ hist);
    ia_cov : forall x, In x (points hist) -> exists p, In p (tpts n (root (run L SZ hist))) /\ (p = x \/ veq L p x = true);
    ia_sub : forall x, In x (elements n (root (run L SZ hist))) -> In x (inserted hist)
  }.

  Lemma acc_fst (hist : list (op S n P)) :
    fst (fold_left (fun '(t, acc) o => let '(t', r) := step L SZ t o in
      (t', match o, r with OpInsert p v, RBool true => (p, v) :: acc | _, _ => acc end)) hist (kd_empty, @nil (vec S n * P))) = run L SZ hist.
  Proof.
    induction hist as [|o hist IH] using rev_ind; [reflexivity|]. rewrite run_app, fold_left_app. cbn.
    destruct (fold_left _ hist _) as [t acc]. cbn in IH. subst t. destruct (step L SZ (run L SZ hist) o). reflexivity.
  Qed.
  Lemma acc_snoc (hist : list (op S n P)) o :
    accepted L SZ (hist ++ [o]) = match o, snd (step L SZ (run L SZ hist) o) with OpInsert p v, RBool true => (p, v) :: accepted L SZ hist | _, _ => accepted L SZ hist end.
  Proof.
    unfold accepted. rewrite fold_left_app. cbn. pose proof (acc_fst hist) as E. destruct (fold_left _ hist _) as [t acc]. cbn in E. subst t.
    destruct o; cbn; try reflexivity. destruct (insert _ _ _ _ _) as [t' r]. reflexivity.
  Qed.

  Lemma inva_run hist : inva hist.
  Proof.
    induction hist as [|o hist [I1 I2 I3 I4]] using rev_ind.
    - split; cbn; try tauto. constructor.
    - assert (Q : inserted [o] = [] -> fst (step L SZ (run L SZ hist) o) = run L SZ hist -> accepted L SZ (hist ++ [o]) = accepted L SZ hist -> inva (hist ++ [o])).
      { intros E1 E2 E3. split; rewrite ?run_app; cbn; rewrite ?E2, ?E3; try assumption.
        - intros x Hx. apply I3. unfold points in *. rewrite inserted_app, E1, app_nil_r in Hx. exact Hx.
        - intros x Hx. rewrite inserted_app, E1, app_nil_r. auto. }
      destruct o as [p v|p| | |q]; try (apply Q; [reflexivity|reflexivity|apply acc_snoc]). clear Q.
      assert (Es : run L SZ (hist ++ [OpInsert p v]) = fst (insert L SZ (run L SZ hist) p v)).
      { rewrite run_app. cbn. destruct (insert _ _ _ _ _). reflexivity. }
      assert (Ea : accepted L SZ (hist ++ [OpInsert p v]) = if snd (insert L SZ (run L SZ hist) p v) then (p, v) :: accepted L SZ hist else accepted L SZ hist).
      { rewrite acc_snoc. cbn. destruct (insert _ _ _ _ _) as [? []]; reflexivity. }
      unfold insert in Es, Ea. destruct (insertHelper L n SZ (root (run L SZ hist)) p v 0) as [r b] eqn:E. cbn in Es, Ea.
      destruct (insert_any _ _ _ _ _ _ I1 E) as [Or Hc].
      assert (Er : root (run L SZ (hist ++ [OpInsert p v])) = r) by (rewrite Es; reflexivity).
      destruct Hc as [(-> & Hp)|(-> & -> & x & Hx & Ex)].
      + assert (Hpt : Permutation (tpts n r) (p :: tpts n (root (run L SZ hist)))) by (unfold tpts; rewrite Hp; reflexivity).
        split; rewrite ?Er, ?Ea.
        * exact Or.
        * rewrite Hp. constructor. exact I2.
        * intros x Hx. rewrite points_app in Hx. apply in_app_or in Hx as [Hx|[<-|[]]].
          -- destruct (I3 x Hx) as (p' & H1 & H2). exists p'. split; [|exact H2]. eapply Permutation_in; [symmetry; exact Hpt|right; exact H1].
          -- exists p. split; [|left; reflexivity]. eapply Permutation_in; [symmetry; exact Hpt|left; reflexivity].
        * intros x Hx. rewrite inserted_app. apply in_or_app. eapply Permutation_in in Hx; [|exact Hp].
          destruct Hx as [<-|Hx]; [right; left; reflexivity|left; auto].
      + split; rewrite ?Er, ?Ea; try assumption.
        * intros y Hy. rewrite points_app in Hy. apply in_app_or in Hy as [Hy|[<-|[]]]; [auto|]. exists x. auto.
        * intros y Hy. rewrite inserted_app. apply in_or_app. auto.
  Qed.
End Any.

Section Main.
  Context {pr ex : Z} {Hpr : Prec_gt_0 pr} {Hex : Prec_lt_emax pr ex} (H2 : (2 < pr)%Z).
  Notation bf := (binary_float pr ex).
  Notation rnd := (rndf pr ex).
  Notation fmt := (fmtf pr ex).
  Notation fsub := (@Bminus pr ex Hpr Hex mode_NE).
  Notation fadd := (@Bplus pr ex Hpr Hex mode_NE).
  Notation fmul := (@Bmult pr ex Hpr Hex mode_NE).
  Notation fsqrt := (@Bsqrt pr ex Hpr Hex mode_NE).
  Context (f g h : bf -> bf) (fpi : bf).
  Let S := IEEE pr ex Hpr Hex f g h fpi.
  Context (L : Linal S) (n : nat) {P : Type} (SZ : nat) (Hn : n <> 0%nat).

  Lemma finv_coords (v : vec S n) : finite_pt v -> finv f g h fpi v.
  Proof.
    intros H i. destruct (Nat.lt_ge_cases i n) as [Hi|Hi]; [apply H, Hi|].
    enough (E : vnth (@s0 S) i v = @s0 S) by exact (eq_trans (f_equal is_finite E) eq_refl). clear H Hn. revert i Hi. induction n as [|m IH]; intros i Hi; [reflexivity|].
    destruct i as [|i]; [exfalso; lia|]. cbn. apply IH. lia.
  Qed.

  (** every ordered tree *)
  Lemma nearest_tree (t : @tree S n P) k (q : vec S n) : t <> Leaf -> ordered n SZ 0 t ->
    (forall x, In x (tpts n t) -> finite_pt x) -> finite_pt q ->
    exists b, nearest SZ (mkKd t k) q = Ok b /\ In (b_point b, b_payload b) (elements n t) /\
      forall x, In x (tpts n t) -> Bleb (cdist (b_point b) q) (cdist x q) = true.
  Proof.
    intros Hne Ho Hf Hq. apply finv_coords in Hq.
    assert (Hfin : forall x, In x (tpts n t) -> finv f g h fpi x) by (intros x Hx; apply finv_coords, Hf, Hx). clear Hf.
    unfold nearest. cbn [root]. destruct t as [|p v l r]; [contradiction|].
    set (b0 := mkBest [] p v (kd_distance q p)). set (b' := nearestHelper _ _ _ _ _ _ _). exists b'. split; [reflexivity|].
    assert (Fp : finv f g h fpi p) by (apply Hfin; rewrite tpts_node; left; reflexivity).
    assert (Hin : In (b_point b', b_payload b') (elements n (Node p v l r)) /\ b_dist b' = kd_distance (b_point b') q).
    { destruct (nearest_from n SZ (Node p v l r) [] q b0 0) as [E|E]; [|exact E]. fold b' in E. rewrite E. split; [left; reflexivity|].
      exact (dist_sym f g h fpi n q p Hq Fp). }
    destruct Hin as [Hin Hd]. split; [exact Hin|].
    intros x Hx'.
    rewrite !cdist_eq, <- Hd.
    destruct (nearest_min (S := S) n (P := P) SZ (finv f g h fpi) (V) q) with (t := Node p v l r) (here := @nil bool) (b := b0) (d := 0%nat) as (Vb & _ & Hm); auto.
    + intros y Fy. apply dist_V; assumption.
    + unfold sle. intros a b c (Na & _) (Nb & _) (Nc & _) A B. apply lex_ltb in A; try assumption. apply lex_ltb in B; try assumption.
      apply lex_ltb; try assumption. eapply lex_trans; eassumption.
    + unfold sle. intros a b (Na & _) (Nb & _) A. exact (ltb_asym a b Na Nb A).
    + unfold sle. intros a (Na & _). apply lex_ltb; try assumption. apply lex_refl, Na.
    + intros d p' y bd Fp' Fy Vbd A B. unfold sle. apply lex_ltb; [apply Vbd|apply (dist_V f g h fpi n y q Fy Hq)|].
      exact (prune_bf H2 f g h fpi n q p' y (d mod n) bd (Nat.mod_upper_bound d n Hn) Hq Fp' Fy Vbd A B).
    + apply dist_V; assumption.
    + specialize (Hm x Hx'). unfold sle in Hm.
      apply lex_leb; [apply Vb|apply (dist_V f g h fpi n x q (Hfin x Hx') Hq)|].
      apply lex_ltb in Hm; [exact Hm|apply Vb|apply (dist_V f g h fpi n x q (Hfin x Hx') Hq)].
  Qed.

  Lemma nearest_bf (hist : list (op S n P)) (q : vec S n) :
    (forall p, In p (points hist) -> finite_pt p) -> finite_pt q ->
    (accepted L SZ hist = [] -> nearest SZ (run L SZ hist) q = Throw) /\
    (accepted L SZ hist <> [] -> exists b, nearest SZ (run L SZ hist) q = Ok b /\ In (b_point b, b_payload b) (accepted L SZ hist) /\
       forall x w, In (x, w) (accepted L SZ hist) -> Bleb (cdist (b_point b) q) (cdist x q) = true).
  Proof.
    intros Hf Hq. destruct (inva_run L n SZ hist) as [I1 I2 I3 I4].
    assert (Hfin : forall x, In x (tpts n (root (run L SZ hist))) -> finite_pt x).
    { intros x Hx. apply Hf. unfold tpts in Hx. unfold points. apply in_map_iff in Hx as (y & <- & Hy). apply in_map. auto. }
    destruct (run L SZ hist) as [t k]. cbn [root] in *. split.
    - intros E. rewrite E in I2. destruct t as [|p v l r]; [reflexivity|]. apply Permutation_sym, Permutation_nil in I2. discriminate.
    - intros Hne. destruct (nearest_tree t k q) as (b & Eb & Hin & Hm); try assumption.
      { intros ->. apply Hne. apply Permutation_nil, I2. }
      exists b. split; [exact Eb|]. split; [eapply Permutation_in; [exact I2|exact Hin]|].
      intros x w Hx. apply Hm. apply (in_map fst _ (x, w)). eapply Permutation_in; [symmetry; exact I2|exact Hx].
  Qed.

  (** with the exact comparison every inserted point counts *)
  Lemma nearest_bf_exact (hist : list (op S n P)) (q : vec S n) :
    (forall p p' : vec S n, veq L p p' = true -> forall i, (i < n)%nat -> @seqb S (vnth s0 i p) (vnth s0 i p') = true) ->
    (forall p, In p (points hist) -> finite_pt p) -> finite_pt q ->
    points hist <> [] -> exists b, nearest SZ (run L SZ hist) q = Ok b /\ In (b_point b, b_payload b) (inserted hist) /\
       forall x, In x (points hist) -> Bleb (cdist (b_point b) q) (cdist x q) = true.
  Proof.
    intros Heq Hf Hq Hne. destruct (nearest_bf hist q Hf Hq) as [_ H]. destruct (inva_run L n SZ hist) as [I1 I2 I3 I4].
    assert (Hacc : accepted L SZ hist <> []).
    { intros E. rewrite E in I2. apply Permutation_sym, Permutation_nil in I2. destruct (points hist) as [|x l]; [contradiction|].
      destruct (I3 x (or_introl eq_refl)) as (p & Hp & _). unfold tpts in Hp. rewrite I2 in Hp. destruct Hp. }
    destruct (H Hacc) as (b & Hb & Hin & Hmin). exists b. split; [exact Hb|]. split; [apply I4; eapply Permutation_in; [symmetry; exact I2|exact Hin]|].
    intros x Hx. destruct (I3 x Hx) as (p & Hp & Hpx). unfold tpts in Hp. apply in_map_iff in Hp as ([p' w] & E & Hp). cbn in E. subst p'.
    pose proof (Hmin p w (Permutation_in _ I2 Hp)) as Hle. destruct Hpx as [->|Hpx]; [exact Hle|].
    assert (Fp : finv f g h fpi p) by (apply finv_coords, Hf, (in_map fst _ (p, w)), I4, Hp).
    assert (Fx : finv f g h fpi x) by (apply finv_coords, Hf, Hx). apply finv_coords in Hq.
    replace (cdist x q) with (cdist p q); [exact Hle|]. rewrite !cdist_eq. unfold kd_distance. f_equal.
    apply (sqsum_ext f g h fpi); try assumption. intros i Hi. pose proof (Heq p x Hpx i Hi) as E. cbn in E.
    assert (E' : forall a b : bf, fin a -> fin b -> Beqb a b = true -> B2R a = B2R b).
    { clear. intros a b Fa Fb H'. rewrite Beqb_correct in H' by assumption. destruct (Req_bool_spec (B2R a) (B2R b)); [assumption|discriminate]. }
    f_equal. f_equal. exact (E' _ _ (Fp i) (Fx i) E).
  Qed.
  Lemma sqd_self (x : bf) : fin x -> sqd x x = @B754_zero pr ex false.
  Proof.
    intros Hx. rewrite (sqd_ext x x (B754_zero false) (B754_zero false)); try assumption; try reflexivity.
    rewrite !Rminus_diag_eq by reflexivity. reflexivity.
  Qed.
  Lemma sqsum_self m : forall a : vec bf m, finv f g h fpi a -> @sqsum S (@B754_zero pr ex false) m a a = @B754_zero pr ex false.
  Proof.
    induction m as [|m IH]; intros a Ha; [reflexivity|].
    change (@sqsum S (@B754_zero pr ex false) (Datatypes.S m) a a) with (@sqsum S (fadd (@B754_zero pr ex false) (sqd (fst a) (fst a))) m (snd a) (snd a)).
    rewrite (sqd_self (fst a) (Ha 0%nat)). exact (IH (snd a) (finv_tl f g h fpi a Ha)).
  Qed.
  Lemma cdist_self (a : vec S n) : finite_pt a -> cdist a a = (B754_zero false : bf).
  Proof.
    intros Ha. apply finv_coords in Ha. rewrite cdist_eq. unfold kd_distance. exact (f_equal fsqrt (sqsum_self n a Ha)).
  Qed.
  Lemma apart_pos (x y sum : bf) k : nn sum -> lex (sqd x y) sum -> fin x -> fin y -> (3 - ex - pr <= 2 * k)%Z ->
    bpow radix2 k <= Rabs (B2R x - B2R y) -> Bleb (fsqrt sum) (B754_zero false) = false.
  Proof.
    intros N Hsum Fa Fb Hk Hd.
    pose proof (@emax_pos pr ex Hpr Hex) as (P1 & P2).
    assert (Hk' : (3 - ex - pr <= k)%Z) by lia.
    assert (K0 : 0 < bpow radix2 k) by apply bpow_gt_0.
    assert (Hr : bpow radix2 k <= Rabs (rnd (B2R x - B2R y))).
    { rewrite <- rnd_abs, <- (@rnd_id pr ex _ (fmt_pow k Hk')). apply rnd_le, Hd. }
    destruct (sqrt_spec _ N) as [(_ & ->)|(Fs & Fr & Er & _)]; [reflexivity|].
    destruct Hsum as [E|(Fq & _ & Hle)]; [rewrite E in Fs; discriminate|].
    assert (Hsq : bpow radix2 (2 * k) <= B2R (sqd x y)).
    { unfold sqd in *. destruct (sub_spec x y Fa Fb) as [(Fd & Ed & _)|((s & E) & _)].
      - destruct (square_spec _ Fd) as [(E & _)|(_ & E & _)]; [rewrite E in Fq; discriminate|]. rewrite E, Ed.
        rewrite <- (@rnd_id pr ex _ (fmt_pow (2 * k) Hk)). apply rnd_le. rewrite <- Rabs_mult_self.
        replace (2 * k)%Z with (k + k)%Z by lia. rewrite bpow_plus. nra.
      - rewrite E, square_inf in Fq. discriminate Fq. }
    assert (Hb0 : bpow radix2 k <= B2R (fsqrt sum)).
    { rewrite Er, <- (@rnd_id pr ex _ (fmt_pow k Hk')). apply rnd_le. rewrite <- (sqrt_square (bpow radix2 k)) by lra.
      apply sqrt_le_1_alt. rewrite <- bpow_plus. replace (k + k)%Z with (2 * k)%Z by lia. lra. }
    rewrite Bleb_correct by (exact Fr || reflexivity). apply Rle_bool_false. cbn. lra.
  Qed.
  (** points further apart than half the exponent range have a positive computed distance *)
  Lemma cdist_apart (a b : vec S n) i k : finite_pt a -> finite_pt b -> (i < n)%nat -> (3 - ex - pr <= 2 * k)%Z ->
    bpow radix2 k <= Rabs (fval i a - fval i b) -> Bleb (cdist a b : bf) (B754_zero false) = false.
  Proof.
    intros Ha Hb Hi Hk Hd. apply finv_coords in Ha, Hb. rewrite cdist_eq.
    destruct (sqsum_spec f g h fpi n (@s0 S) a b (s0_nn f g h fpi) Ha Hb) as (N & _ & Hsum).
    exact (apart_pos _ _ _ k N (Hsum i Hi) (Ha i) (Hb i) Hk Hd).
  Qed.

  Lemma nearest_bf_stored (hist : list (op S n P)) (q : vec S n) k :
    (forall p p' : vec S n, veq L p p' = true -> forall i, (i < n)%nat -> @seqb S (vnth s0 i p) (vnth s0 i p') = true) ->
    (forall p, In p (points hist) -> finite_pt p) -> In q (points hist) -> (3 - ex - pr <= 2 * k)%Z ->
    (forall p, In p (points hist) -> (forall i, (i < n)%nat -> fval i p = fval i q) \/
       (exists i, (i < n)%nat /\ bpow radix2 k <= Rabs (fval i p - fval i q))) ->
    exists b, nearest SZ (run L SZ hist) q = Ok b /\ In (b_point b, b_payload b) (inserted hist) /\
      forall i, (i < n)%nat -> fval i (b_point b) = fval i q.
  Proof.
    intros Heq Hf Hq Hk Hsep. destruct (nearest_bf_exact hist q Heq Hf (Hf q Hq)) as (b & E & Hin & Hm).
    - intros E. rewrite E in Hq. destruct Hq.
    - exists b. split; [exact E|]. split; [exact Hin|]. specialize (Hm q Hq). rewrite (cdist_self q (Hf q Hq)) in Hm.
      assert (Hb : In (b_point b) (points hist)) by exact (in_map fst _ _ Hin).
      destruct (Hsep _ Hb) as [H|(i & Hi & H)]; [exact H|exfalso].
      pose proof (cdist_apart _ q i k (Hf _ Hb) (Hf q Hq) Hi Hk H) as K. exact (Bool.eq_true_false_abs _ Hm K).
  Qed.

  (** the point found for a stored point, in every ordered tree of well separated points *)
  Lemma nearest_tree_stored (t : @tree S n P) c (q : vec S n) k : ordered n SZ 0 t ->
    (forall x, In x (tpts n t) -> finite_pt x) -> In q (tpts n t) -> (3 - ex - pr <= 2 * k)%Z ->
    (forall x, In x (tpts n t) -> x = q \/ exists i, (i < n)%nat /\ bpow radix2 k <= Rabs (fval i x - fval i q)) ->
    exists b, nearest SZ (mkKd t c) q = Ok b /\ b_point b = q.
  Proof.
    intros Ho Hf Hq Hk Hsep. destruct (nearest_tree t c q) as (b & E & Hin & Hm); auto.
    { intros ->. destruct Hq. }
    exists b. split; [exact E|]. specialize (Hm q Hq). rewrite (cdist_self q (Hf q Hq)) in Hm.
    assert (Hb : In (b_point b) (tpts n t)) by exact (in_map fst _ _ Hin).
    destruct (Hsep _ Hb) as [H|(i & Hi & H)]; [exact H|exfalso].
    pose proof (cdist_apart _ q i k (Hf _ Hb) (Hf q Hq) Hi Hk H) as K. exact (Bool.eq_true_false_abs _ Hm K).
  Qed.

  (** ** NaN coordinates *)
  Lemma Bltb_nan (x y : bf) : y = B754_nan -> Bltb x y = false.
  Proof. intros ->. destruct x as [s|s| |s m e0 Hm]; try reflexivity; destruct s; reflexivity. Qed.
  Lemma fadd_nan_r (x : bf) : fadd x B754_nan = B754_nan.
  Proof. destruct x as [s|s| |s m e0 Hm]; reflexivity. Qed.
  Lemma sqd_nan_r (x : bf) : sqd x B754_nan = B754_nan.
  Proof. destruct x as [s|s| |s m e0 Hm]; reflexivity. Qed.
  Lemma sqsum_nan_acc m : forall a b : vec bf m, @sqsum S (B754_nan : bf) m a b = (B754_nan : bf).
  Proof. induction m as [|m IH]; intros a b; [reflexivity|]. exact (IH (snd a) (snd b)). Qed.
  Lemma sqsum_nan m : forall (acc : bf) (a b : vec bf m) i, (i < m)%nat -> vnth (B754_zero false) i b = (B754_nan : bf) ->
    @sqsum S acc m a b = (B754_nan : bf).
  Proof.
    induction m as [|m IH]; intros acc a b i Hi Hb; [exfalso; lia|].
    change (@sqsum S acc (Datatypes.S m) a b) with (@sqsum S (fadd acc (sqd (fst a) (fst b))) m (snd a) (snd b)).
    destruct i as [|i].
    - cbn in Hb. rewrite Hb, sqd_nan_r, fadd_nan_r. apply sqsum_nan_acc.
    - exact (IH _ (snd a) (snd b) i (proj2 (Nat.succ_lt_mono i m) Hi) Hb).
  Qed.

  Lemma nearest_nan (t : @tree S n P) : forall here q (b : @best S n P) d, (b_dist b : bf) = B754_nan -> nearestHelper n SZ t here q b d = b.
  Proof.
    induction t as [|p v l IHl r IHr]; intros here q b d Hb; [reflexivity|]. cbn [nearestHelper].
    assert (E : forall x : S, sltb x (b_dist b) = false) by (intros x; exact (Bltb_nan x _ Hb)).
    rewrite (E (kd_distance p q)).
    assert (G : forall c : bool, (if c then nearestHelper n SZ r (here ++ [true]) q b (next_depth SZ d)
       else nearestHelper n SZ l (here ++ [false]) q b (next_depth SZ d)) = b) by (intros []; auto).
    rewrite !G, E. reflexivity.
  Qed.

  Lemma insert_root p v l r d q w : exists l' r', fst (insertHelper L n SZ (Node p v l r : @tree S n P) q w d) = Node p v l' r'.
  Proof.
    cbn [insertHelper]. destruct (veq L p q); [cbn; eauto|]. destruct (sltb _ _).
    - destruct (insertHelper L n SZ l q w _) as [l' b]. cbn. eauto.
    - destruct (insertHelper L n SZ r q w _) as [r' b]. cbn. eauto.
  Qed.
  Lemma run_root (hist : list (op S n P)) : forall (t : kdtree S n P) p v l r, root t = Node p v l r ->
    exists l' r', root (fold_left (fun t o => fst (step L SZ t o)) hist t) = Node p v l' r'.
  Proof.
    induction hist as [|o hist IH]; intros t p v l r Hr; [eauto|]. cbn [fold_left].
    assert (exists l' r', root (fst (step L SZ t o)) = Node p v l' r') as (l' & r' & E).
    { destruct o as [q w| | | |]; cbn [step fst]; eauto. unfold insert. rewrite Hr.
      destruct (insert_root p v l r 0 q w) as (l' & r' & E).
      destruct (insertHelper L n SZ (Node p v l r) q w 0) as [t' b]. cbn in *. eauto. }
    eapply IH, E.
  Qed.

  Lemma nearest_nan_first (p : vec S n) (v : P) (hist : list (op S n P)) (q : vec S n) i :
    (i < n)%nat -> vnth (B754_zero false) i p = (B754_nan : bf) ->
    exists b, nearest SZ (run L SZ (OpInsert p v :: hist)) q = Ok b /\ b_point b = p /\ b_payload b = v.
  Proof.
    intros Hi Hp. unfold run. cbn [fold_left].
    destruct (run_root hist (fst (step L SZ kd_empty (OpInsert p v))) p v Leaf Leaf eq_refl) as (l & r & E).
    unfold nearest. rewrite E. eexists. split; [reflexivity|]. rewrite nearest_nan; [split; reflexivity|]. cbn [b_dist].
    exact (f_equal fsqrt (sqsum_nan n (@s0 S) q p i Hi Hp)).
  Qed.
End Main.
