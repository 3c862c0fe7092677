(** * Meshes with floating point coordinates, for every format *)

From Coq Require Import List Arith Bool Lia Permutation ZArith Reals Lra.
From Flocq Require Import Core Plus_error BinarySingleNaN.
From Verif Require Import Scalar Linal Result ModelKdTree SpecKdTree SpecIEEE VecLemmas ProofKdTree ProofKdTreeUpdate ProofKdTreeIEEE ProofRound ProofIEEE
  ModelShapes ModelTransform ModelMesh SpecMesh ProofMesh ProofMeshMisc ModelTess SpecTess
  ProofTessComb ProofTessConn ProofTessMesh ProofTess ProofTessCuboid.
Import ListNotations.

Section Near.
  Context {pr ex : Z} {Hpr : Prec_gt_0 pr} {Hex : Prec_lt_emax pr ex} (H2 : (2 < pr)%Z).
  Notation bf := (binary_float pr ex).
  Context (f g h : bf -> bf) (fpi : bf).
  Let S := IEEE pr ex Hpr Hex f g h fpi.

  (** stored points are found *)
  Lemma near_ieee SZ (G : point S -> Prop) k : well_separated k G ->
    forall (t : @tree S 3 (list nat)) c q, ordered 3 SZ 0 t -> (forall x, In x (tpts 3 t) -> G x) -> In q (tpts 3 t) ->
    exists b, nearest SZ (mkKd t c) q = Ok b /\ b_point b = q.
  Proof.
    intros (Hk & Hf & Hs) t c q Ho HG Hq.
    refine (nearest_tree_stored H2 f g h fpi 3 SZ _ t c q k Ho (fun x Hx => Hf x (HG x Hx)) Hq Hk _); [discriminate|].
    intros x Hx. exact (Hs x q (HG x Hx) (HG q Hq)).
  Qed.

  (** a comparison that is exact on numbers is exact on separated points *)
  Lemma exact_on (L : Linal S) n (G : vec S n -> Prop) k :
    (forall x y : vec S n, veq L x y = true <-> forall i, (i < n)%nat -> @seqb S (vnth s0 i x) (vnth s0 i y) = true) ->
    well_separated k G -> veq_on L G.
  Proof.
    intros HL (_ & Hf & Hs) x y Hx Hy. rewrite HL. split.
    - intros H. destruct (Hs x y Hx Hy) as [E|(i & Hi & K)]; [exact E|exfalso].
      specialize (H i Hi). apply eqb_B2R in H as (_ & H); [|exact (Hf y Hy i Hi)].
      pose proof (bpow_gt_0 radix2 k) as Hb. assert (E : @fval pr ex n i x = @fval pr ex n i y) by exact H.
      rewrite E, Rminus_diag_eq, Rabs_R0 in K by reflexivity. lra.
    - intros -> i Hi. cbn. rewrite Beqb_correct by exact (Hf y Hy i Hi). apply Req_bool_true. reflexivity.
  Qed.

  (** checking separation by computation *)
  Lemma apart_computed (x y : bf) k : fin x -> fin y -> (3 - ex - pr <= k)%Z -> (k <= ex - pr)%Z ->
    Bltb (ieee_pow pr ex Hpr Hex 1 k) (Babs (Bminus mode_NE x y)) = true -> (bpow radix2 k <= Rabs (B2R x - B2R y))%R.
  Proof.
    intros Fx Fy Hk Hk' H. destruct (pow_spec 1 k) as (Fp & Ep); [|exact Hk|exact Hk'|].
    { cbn [Z.abs]. apply (Z.pow_gt_1 2); lia. }
    rewrite Rmult_1_l in Ep. apply Rnot_lt_le. intros K. apply Rlt_le in K.
    apply (@rnd_le pr ex Hpr) in K. rewrite (@rnd_id pr ex _ (fmt_pow k Hk)), rnd_abs in K.
    assert (He : (bpow radix2 k < bpow radix2 ex)%R) by (apply bpow_lt; lia).
    destruct (sub_spec x y Fx Fy) as [(Fd & Ed & _)|(_ & Hge)]; [|lra].
    rewrite Bltb_correct in H by (exact Fp || (rewrite is_finite_Babs; exact Fd)).
    rewrite Ep, B2R_Babs, Ed in H. destruct (Rlt_bool_spec (bpow radix2 k) (Rabs (rndf pr ex (B2R x - B2R y)))) as [K'|K']; [lra|discriminate].
  Qed.
  Definition apartb (k : Z) (x y : point S) : bool :=
    existsb (fun i => Bltb (ieee_pow pr ex Hpr Hex 1 k) (Babs (Bminus mode_NE (vnth (B754_zero false) i x) (vnth (B754_zero false) i y)))) [0; 1; 2]%nat.
  Fixpoint separatedb (k : Z) (l : list (point S)) : bool :=
    match l with
    | [] => true
    | x :: r => forallb (fun i => is_finite (vnth (B754_zero false : bf) i x)) [0; 1; 2]%nat && forallb (apartb k x) r && separatedb k r
    end.
  Lemma apart_sym k (x y : point S) : apart (p := pr) (e := ex) k x y -> apart (p := pr) (e := ex) k y x.
  Proof. intros (i & Hi & H). exists i. split; [exact Hi|]. rewrite Rabs_minus_sym. exact H. Qed.
  Lemma apart_neq k (x : point S) : ~ apart (p := pr) (e := ex) k x x.
  Proof. intros (i & _ & H). rewrite Rminus_diag_eq, Rabs_R0 in H by reflexivity. pose proof (bpow_gt_0 radix2 k). lra. Qed.
  Lemma separatedb_ok k l : (3 - ex - pr <= 2 * k)%Z -> (3 - ex - pr <= k)%Z -> (k <= ex - pr)%Z -> separatedb k l = true ->
    NoDup l /\ well_separated (p := pr) (e := ex) k (fun x : point S => In x l).
  Proof.
    intros Hk0 Hk Hk' H.
    assert (K : NoDup l /\ (forall x, In x l -> finite_pt (p := pr) (e := ex) x) /\
                (forall x y : point S, In x l -> In y l -> x = y \/ apart (p := pr) (e := ex) k x y)).
    { induction l as [|x r IH]; [split; [constructor|split; [intros ? []|intros ? ? []]]|].
      cbn [separatedb] in H. apply andb_true_iff in H as (H & Hr). apply andb_true_iff in H as (Hf & Ha).
      destruct (IH Hr) as (I1 & I2 & I3). rewrite forallb_forall in Hf, Ha.
      assert (Fx : finite_pt (p := pr) (e := ex) (x : vec bf 3)).
      { intros i Hi. apply (Hf i). cbn. lia. }
      assert (A : forall y, In y r -> apart (p := pr) (e := ex) k x y).
      { intros y Hy. specialize (Ha y Hy). apply existsb_exists in Ha as (i & Hi & E).
        assert (Hi3 : (i < 3)%nat) by (cbn in Hi; lia). exists i. split; [exact Hi3|].
        apply apart_computed; [exact (Fx i Hi3)|exact (I2 y Hy i Hi3)|exact Hk|exact Hk'|exact E]. }
      split; [|split].
      - constructor; [|exact I1]. intros Hx. exact (apart_neq k x (A x Hx)).
      - intros y [<-|Hy]; auto.
      - intros y z [<-|Hy] [<-|Hz]; auto. right. apply apart_sym, A, Hy. }
    destruct K as (K1 & K2). split; [exact K1|]. split; [exact Hk0|exact K2].
  Qed.
  Lemma well_separated_sub k (G G' : point S -> Prop) : (forall x, G' x -> G x) ->
    well_separated (p := pr) (e := ex) k G -> well_separated (p := pr) (e := ex) k G'.
  Proof. intros H (A & B & C). split; [exact A|]. split; [intros x Hx; auto|intros x y Hx Hy; auto]. Qed.

  (** ** Boxes *)
  Notation fadd := (@Bplus pr ex Hpr Hex mode_NE).
  Notation fmul := (@Bmult pr ex Hpr Hex mode_NE).
  Notation fdiv := (@Bdiv pr ex Hpr Hex mode_NE).
  Notation one := (ieee_pow pr ex Hpr Hex 1 0).
  Notation pz := (B754_zero false : bf).
  Notation nz := (B754_zero true : bf).

  Lemma fadd_comm (x y : bf) : fadd x y = fadd y x.
  Proof.
    destruct x as [s|s| |s m e0 Hm], y as [s'|s'| |s' m' e0' Hm']; try reflexivity; try (destruct s, s'; reflexivity).
    unfold Bplus. rewrite Z.min_comm. f_equal. apply Z.add_comm.
  Qed.
  Lemma fadd_zero (x : bf) s : x <> nz -> fadd x (B754_zero s) = x.
  Proof. intros H. destruct x as [t|t| |t m e0 Hm]; try reflexivity. destruct t; [contradiction|]. destruct s; reflexivity. Qed.
  Lemma zero_fadd (x : bf) s : x <> nz -> fadd (B754_zero s) x = x.
  Proof. intros H. rewrite fadd_comm. apply fadd_zero; assumption. Qed.
  Lemma zero_zero s t : exists u, fadd (B754_zero s) (B754_zero t) = (B754_zero u : bf).
  Proof. destruct s, t; eexists; reflexivity. Qed.
  Lemma neg_le (x : bf) : fin x -> Bsign x = true -> (B2R x <= 0)%R.
  Proof. intros F H. destruct x as [s|s| |s m e0 Hm]; try discriminate; cbn in H; [cbn; lra|]. subst s. cbn. apply F2R_le_0. cbn. lia. Qed.
  Lemma fadd_nz (x y : bf) : x <> nz -> fin x -> fin y -> fin (fadd x y) -> fadd x y <> nz.
  Proof.
    intros Hx Fx Fy Fs E. pose proof (Bplus_correct pr ex Hpr Hex mode_NE x y Fx Fy) as K.
    destruct (Rlt_bool _ _) in K.
    - destruct K as (K1 & _ & K3). rewrite E in K1, K3. cbn [B2R Bsign] in K1, K3.
      symmetry in K1. cbn [round_mode] in K1.
      assert (A : (B2R x + B2R y = 0)%R).
      { destruct (Req_dec (B2R x + B2R y) 0) as [A|A]; [exact A|exfalso]. revert K1.
        apply (round_plus_neq_0 radix2 (FLT_exp (3 - ex - pr) pr) ZnearestE); [| |exact A]; apply (@B2R_fmt pr ex). }
      rewrite A, Rcompare_Eq in K3 by reflexivity. symmetry in K3. apply andb_true_iff in K3 as (S1 & S2). apply Hx.
      pose proof (neg_le x Fx S1) as N1. pose proof (neg_le y Fy S2) as N2.
      destruct x as [s|s| |s m e0 Hm]; try discriminate; [cbn in S1; subst; reflexivity|].
      exfalso. cbn in S1. subst s. assert (N : (B2R (B754_finite true m e0 Hm : bf) < 0)%R) by (apply F2R_lt_0; cbn; lia). lra.
    - destruct K as (K & _). rewrite E in K. discriminate K.
  Qed.

  (** unit vectors *)
  Lemma fin_one : fin one /\ B2R one = 1%R /\ Bsign one = false.
  Proof.
    destruct (@one_spec pr ex Hpr Hex) as (F & E). split; [exact F|]. split; [exact E|].
    destruct one as [s|s| |s m e0 Hm]; try discriminate; cbn in E; [lra|]. destruct s; [|reflexivity].
    pose proof (neg_le (B754_finite true m e0 Hm) F eq_refl) as K. exfalso. apply (Rlt_not_le 1 0 Rlt_0_1). rewrite <- E. exact K.
  Qed.
  Lemma fmul_one (x : bf) : fin x -> fmul x one = x.
  Proof.
    intros Fx. destruct fin_one as (F1 & E1 & S1).
    pose proof (Bmult_correct pr ex Hpr Hex mode_NE x one) as K. cbn [round_mode] in K. rewrite E1, Rmult_1_r in K.
    change (round radix2 (SpecFloat.fexp pr ex) ZnearestE (B2R x)) with (rndf pr ex (B2R x)) in K.
    rewrite (@rnd_id pr ex _ (B2R_fmt x)) in K.
    rewrite Rlt_bool_true in K by apply abs_B2R_lt_emax. rewrite Fx, F1, S1, xorb_false_r in K. destruct K as (K1 & K2 & K3).
    apply B2R_Bsign_inj; [exact K2|exact Fx|exact K1|]. apply K3. destruct (fmul x one); try discriminate; reflexivity.
  Qed.
  Lemma fdiv_one (x : bf) : fin x -> fdiv x one = x.
  Proof.
    intros Fx. destruct fin_one as (F1 & E1 & S1).
    pose proof (Bdiv_correct pr ex Hpr Hex mode_NE x one) as K. cbn [round_mode] in K. rewrite E1 in K. unfold Rdiv in K. rewrite Rinv_1, Rmult_1_r in K.
    specialize (K R1_neq_R0).
    change (round radix2 (SpecFloat.fexp pr ex) ZnearestE (B2R x)) with (rndf pr ex (B2R x)) in K.
    rewrite (@rnd_id pr ex _ (B2R_fmt x)) in K.
    rewrite Rlt_bool_true in K by apply abs_B2R_lt_emax. rewrite Fx, S1, xorb_false_r in K. destruct K as (K1 & K2 & K3).
    apply B2R_Bsign_inj; [exact K2|exact Fx|exact K1|]. apply K3. destruct (fdiv x one); try discriminate; reflexivity.
  Qed.
  Lemma fmul_zero (x : bf) s : fin x -> exists t, fmul x (B754_zero s) = B754_zero t.
  Proof. intros Fx. destruct x as [t|t| |t m e0 Hm]; try discriminate; eexists; reflexivity. Qed.

  Definition zero (x : bf) : Prop := exists s, x = B754_zero s.
  Lemma zero_add x y : zero x -> zero y -> zero (fadd x y).
  Proof. intros (s & ->) (t & ->). apply zero_zero. Qed.
  Lemma zero_mul (x y : bf) : fin x -> zero y -> zero (fmul x y).
  Proof. intros Fx (s & ->). apply fmul_zero, Fx. Qed.
  Lemma zero_mul_l (x y : bf) : zero x -> fin y -> zero (fmul x y).
  Proof. intros (s & ->) Fy. destruct y as [t|t| |t m e0 Hm]; try discriminate; eexists; reflexivity. Qed.
  Lemma zero_fin x : zero x -> fin x.
  Proof. intros (s & ->). reflexivity. Qed.
  Lemma zero_pz : zero pz.
  Proof. exists false. reflexivity. Qed.
  Lemma add_z (x z : bf) : x <> nz -> zero z -> fadd x z = x.
  Proof. intros H (s & ->). apply fadd_zero, H. Qed.
  Lemma z_add (x z : bf) : x <> nz -> zero z -> fadd z x = x.
  Proof. intros H (s & ->). apply zero_fadd, H. Qed.

  (** the sides of the box spanned by a diagonal *)
  Lemma unit_sides (d0 d1 d2 : bf) : fin d0 -> fin d1 -> fin d2 -> d0 <> nz -> d1 <> nz -> d2 <> nz ->
    exists z01 z02 z10 z12 z20 z21, zero z01 /\ zero z02 /\ zero z10 /\ zero z12 /\ zero z20 /\ zero z21 /\
      @projection S 3 (mk3 d0 d1 d2) unitX = (mk3 d0 z01 z02 : point S) /\
      @projection S 3 (mk3 d0 d1 d2) unitY = (mk3 z10 d1 z12 : point S) /\
      @projection S 3 (mk3 d0 d1 d2) unitZ = (mk3 z20 z21 d2 : point S).
  Proof.
    intros F0 F1 F2 N0 N1 N2. destruct fin_one as (Fo & Eo & So).
    assert (No : one <> nz) by (intros E; rewrite E in Eo; cbn in Eo; lra).
    assert (O1 : fmul one one = one) by (apply fmul_one, Fo).
    assert (Z1 : zero (fmul pz pz)) by (apply zero_mul; [reflexivity|apply zero_pz]).
    assert (Zp : zero pz) by apply zero_pz.
    assert (Zd : forall d, fin d -> zero (fmul d pz)) by (intros d Fd; apply zero_mul; assumption).
    assert (Za : forall x y, zero x -> zero y -> zero (fadd x y)) by apply zero_add.
    assert (X1 : @dot S 3 unitX unitX = one).
    { change (fadd (fmul one one) (fadd (fmul pz pz) (fadd (fmul pz pz) pz)) = one). rewrite O1. apply add_z; auto. }
    assert (Y1 : @dot S 3 unitY unitY = one).
    { change (fadd (fmul pz pz) (fadd (fmul one one) (fadd (fmul pz pz) pz)) = one). rewrite O1, (add_z one) by auto. apply z_add; auto. }
    assert (W1 : @dot S 3 unitZ unitZ = one).
    { change (fadd (fmul pz pz) (fadd (fmul pz pz) (fadd (fmul one one) pz)) = one). rewrite O1, (add_z one), (z_add one) by auto. apply z_add; auto. }
    assert (X2 : @dot S 3 (mk3 d0 d1 d2) unitX = d0).
    { change (fadd (fmul d0 one) (fadd (fmul d1 pz) (fadd (fmul d2 pz) pz)) = d0). rewrite fmul_one by assumption. apply add_z; auto. }
    assert (Y2 : @dot S 3 (mk3 d0 d1 d2) unitY = d1).
    { change (fadd (fmul d0 pz) (fadd (fmul d1 one) (fadd (fmul d2 pz) pz)) = d1). rewrite fmul_one, (add_z d1) by auto. apply z_add; auto. }
    assert (W2 : @dot S 3 (mk3 d0 d1 d2) unitZ = d2).
    { change (fadd (fmul d0 pz) (fadd (fmul d1 pz) (fadd (fmul d2 one) pz)) = d2). rewrite fmul_one, (add_z d2), (z_add d2) by auto. apply z_add; auto. }
    assert (Q : forall d, fin d -> @sdiv S d one = d) by exact fdiv_one.
    exists (fmul d0 pz), (fmul d0 pz), (fmul d1 pz), (fmul d1 pz), (fmul d2 pz), (fmul d2 pz).
    repeat (split; [solve [auto]|]). unfold projection. rewrite X1, X2, Y1, Y2, W1, W2, !Q by assumption.
    repeat split; [change (mk3 (fmul d0 one) (fmul d0 pz) (fmul d0 pz) = mk3 d0 (fmul d0 pz) (fmul d0 pz))
                  |change (mk3 (fmul d1 pz) (fmul d1 one) (fmul d1 pz) = mk3 (fmul d1 pz) d1 (fmul d1 pz))
                  |change (mk3 (fmul d2 pz) (fmul d2 pz) (fmul d2 one) = mk3 (fmul d2 pz) (fmul d2 pz) d2)]; rewrite fmul_one by assumption; reflexivity.
  Qed.

  (** corner [n] of the box *)
  Definition fcorner (lo hi : point S) (n : nat) : point S :=
    mk3 (vnth s0 0 (if Nat.testbit n 0 then hi else lo)) (vnth s0 1 (if Nat.testbit n 1 then hi else lo))
        (vnth s0 2 (if Nat.testbit n 2 then hi else lo)).
  Lemma box_triangles (o0 o1 o2 d0 d1 d2 z01 z02 z10 z12 z20 z21 : bf) :
    fin o0 -> fin o1 -> fin o2 -> fin d0 -> fin d1 -> fin d2 ->
    o0 <> nz -> o1 <> nz -> o2 <> nz -> d0 <> nz -> d1 <> nz -> d2 <> nz ->
    fin (fadd d0 o0) -> fin (fadd d1 o1) -> fin (fadd d2 o2) ->
    zero z01 -> zero z02 -> zero z10 -> zero z12 -> zero z20 -> zero z21 ->
    cuboid_triangles (@mkCuboid S (mk3 o0 o1 o2) (mk3 d0 z01 z02) (mk3 z10 d1 z12) (mk3 z20 z21 d2)) =
    solid_triangles S btris (fcorner (mk3 o0 o1 o2) (mk3 (fadd d0 o0) (fadd d1 o1) (fadd d2 o2))).
  Proof.
    intros Fo0 Fo1 Fo2 Fd0 Fd1 Fd2 No0 No1 No2 Nd0 Nd1 Nd2 Fh0 Fh1 Fh2 Z01 Z02 Z10 Z12 Z20 Z21.
    assert (Zp : zero pz) by apply zero_pz.
    assert (Za : forall x y, zero x -> zero y -> zero (fadd x y)) by apply zero_add.
    assert (Nh0 : fadd d0 o0 <> nz) by (apply fadd_nz; assumption).
    assert (Nh1 : fadd d1 o1 <> nz) by (apply fadd_nz; assumption).
    assert (Nh2 : fadd d2 o2 <> nz) by (apply fadd_nz; assumption).
    unfold cuboid_triangles, face_triangles, solid_triangles, btris. cbn [cu_x cu_y cu_z cu_origin map app rev3 map3].
    unfold fcorner. cbn [Nat.testbit Nat.odd Nat.even negb Nat.div2].
    cbv [vadd vmap2 mk3 vnth fst snd sadd s0 S IEEE]. cbn [fst snd].
    repeat first [apply (f_equal2 (@cons _))|apply (f_equal2 (@pair _ _))|reflexivity
      |match goal with |- @eq _ ?u ?v => change (@eq bf u v) end;
       repeat first [rewrite (add_z o0) by auto|rewrite (add_z o1) by auto|rewrite (add_z o2) by auto
                    |rewrite (z_add o0) by auto|rewrite (z_add o1) by auto|rewrite (z_add o2) by auto
                    |rewrite (add_z d0) by auto|rewrite (add_z d1) by auto|rewrite (add_z d2) by auto
                    |rewrite (z_add d0) by auto|rewrite (z_add d1) by auto|rewrite (z_add d2) by auto];
       try reflexivity; first [apply fadd_comm|apply add_z; auto]].
  Qed.

  (** from the triangles of a closed surface with twelve triangles to the cuboid mesh *)
  Lemma cuboid_surface (L : Linal S) W dbg self SZ (c : cuboid S) (pos : nat -> point S) k :
    (36 < W)%nat -> cuboid_triangles c = solid_triangles S btris pos -> NoDup (map pos (seq 0 8)) ->
    well_separated k (fun x => In x (map pos (seq 0 8))) -> veq_on L (fun x => In x (map pos (seq 0 8))) ->
    exists m, cuboid_mesh L W dbg self SZ c = Ok m /\ surface_mesh W dbg self 8 btris (map pos (seq 0 8)) m.
  Proof.
    intros HW Ec Hnd Hsep HG.
    assert (Hin : forall v, bv_ok v -> nth_error (map pos (seq 0 8)) v = Some (pos v)).
    { intros v Hv. rewrite nth_error_map, (nth_error_nth' _ 0%nat) by (rewrite seq_length; exact Hv). rewrite seq_nth by exact Hv. reflexivity. }
    destruct (surface_solid L W dbg self SZ _ HG (near_ieee SZ _ k Hsep) bv_ok (fun v => v) (seq 0 8) 8 btris) with (pos := pos) as (m & E & H).
    - apply map_id.
    - intros v Hv. apply in_seq in Hv. unfold bv_ok. lia.
    - intros u v _ _ E. exact E.
    - intros v Hv. exact Hv.
    - exact btri_corner.
    - exact btri_closed.
    - exact btri_connected.
    - exact btri_star.
    - cbn. lia.
    - intros u v Hu Hv E. apply (proj1 (NoDup_nth_error _) Hnd); [rewrite map_length, seq_length; exact Hu|].
      rewrite !Hin by assumption. congruence.
    - intros v Hv. eapply nth_error_In, Hin, Hv.
    - exists m. split; [|exact H]. unfold cuboid_mesh. rewrite Ec.
      unfold built, mesh_run in E. rewrite foldM_app, adds_run in E.
      destruct (add_triangles _ _ _ _ _ _) as [m0| | | |]; try discriminate. cbn [bind foldM mesh_step] in E |- *.
      destruct (set_opposite_halfedges _ _ _ _ _) as [m1| | | |]; try discriminate. cbn [bind] in E |- *. injection E as ->.
      destruct H as (_ & _ & _ & Hv & Hh & _). rewrite Hv, Hh. destruct dbg; reflexivity.
  Qed.

  Lemma box_corners (lo hi : point S) k :
    (forall i, (i < 3)%nat -> (bpow radix2 k <= Rabs (@fval pr ex 3 i hi - @fval pr ex 3 i lo))%R) ->
    forall u v, bv_ok u -> bv_ok v -> u <> v -> @apart pr ex 3 k (fcorner lo hi u) (fcorner lo hi v).
  Proof.
    intros H u v Hu Hv Hne.
    assert (K : forall i, (i < 3)%nat -> (bpow radix2 k <= Rabs (@fval pr ex 3 i lo - @fval pr ex 3 i hi))%R).
    { intros i Hi. rewrite Rabs_minus_sym. apply H, Hi. }
    assert (B : exists i, (i < 3)%nat /\ Nat.testbit u i <> Nat.testbit v i).
    { destruct (bool_dec (Nat.testbit u 0) (Nat.testbit v 0)) as [E0|]; [|exists 0%nat; auto].
      destruct (bool_dec (Nat.testbit u 1) (Nat.testbit v 1)) as [E1|]; [|exists 1%nat; auto].
      destruct (bool_dec (Nat.testbit u 2) (Nat.testbit v 2)) as [E2|]; [|exists 2%nat; auto].
      exfalso. apply Hne. apply bit_inj; try assumption; unfold bit; rewrite ?E0, ?E1, ?E2; reflexivity. }
    destruct B as (i & Hi & Hb). exists i. split; [exact Hi|].
    assert (E : forall w, @fval pr ex 3 i (fcorner lo hi w) = @fval pr ex 3 i (if Nat.testbit w i then hi else lo)).
    { intros w. unfold fcorner. destruct i as [|[|[|i]]]; [reflexivity|reflexivity|reflexivity|lia]. }
    rewrite !E. destruct (Nat.testbit u i), (Nat.testbit v i); [contradiction|apply H, Hi|apply K, Hi|contradiction].
  Qed.

  (** the corners of a box as a list without repetitions *)
  Lemma box_points (lo hi : point S) k : (3 - ex - pr <= 2 * k)%Z -> @finite_pt pr ex 3 lo -> @finite_pt pr ex 3 hi ->
    (forall i, (i < 3)%nat -> (bpow radix2 k <= Rabs (@fval pr ex 3 i hi - @fval pr ex 3 i lo))%R) ->
    let l := map (fcorner lo hi) (seq 0 8) in
    NoDup l /\ well_separated k (fun x => In x l) /\
    forall q, In q l <-> forall i, (i < 3)%nat -> vnth s0 i q = vnth s0 i lo \/ vnth s0 i q = vnth s0 i hi.
  Proof.
    intros Hk Fl Fh Ha l. pose proof (box_corners lo hi k Ha) as A.
    assert (In8 : forall q, In q l <-> exists v, bv_ok v /\ q = fcorner lo hi v).
    { intros q. unfold l. rewrite in_map_iff. split; intros (v & X & Y).
      - exists v. apply in_seq in Y. split; [unfold bv_ok; lia|auto].
      - exists v. split; [auto|]. apply in_seq. unfold bv_ok in X. lia. }
    split; [|split].
    - apply NoDup_map_on; [apply seq_NoDup|]. intros u v Hu Hv E. apply in_seq in Hu, Hv.
      destruct (Nat.eq_dec u v) as [|Hne]; [assumption|exfalso].
      pose proof (A u v ltac:(unfold bv_ok; lia) ltac:(unfold bv_ok; lia) Hne) as K. rewrite E in K. exact (apart_neq k _ K).
    - split; [exact Hk|]. split.
      + intros x Hx. apply In8 in Hx as (v & Hv & ->). intros i Hi. unfold fcorner.
        destruct i as [|[|[|i]]]; [| | |lia]; cbn [vnth mk3 fst snd]; destruct (Nat.testbit v _); first [apply (Fh 0%nat); lia|apply (Fl 0%nat); lia|apply (Fh 1%nat); lia|apply (Fl 1%nat); lia|apply (Fh 2%nat); lia|apply (Fl 2%nat); lia].
      + intros x y Hx Hy. apply In8 in Hx as (u & Hu & ->), Hy as (v & Hv & ->).
        destruct (Nat.eq_dec u v) as [->|Hne]; [left; reflexivity|right; auto].
    - intros q. rewrite In8. split.
      + intros (v & _ & ->) i Hi. unfold fcorner. destruct i as [|[|[|i]]]; [| | |lia]; cbn [vnth mk3 fst snd]; destruct (Nat.testbit v _); auto.
      + intros H. destruct q as (q0 & q1 & q2 & []).
        pose proof (H 0%nat ltac:(lia)) as H0. pose proof (H 1%nat ltac:(lia)) as H1. pose proof (H 2%nat ltac:(lia)) as H3. clear H.
        cbn [vnth fst snd] in H0, H1, H3. unfold bv_ok, fcorner, mk3.
        destruct H0 as [->| ->], H1 as [->| ->], H3 as [->| ->];
          [exists 0%nat|exists 4%nat|exists 2%nat|exists 6%nat|exists 1%nat|exists 5%nat|exists 3%nat|exists 7%nat];
          (split; [lia|reflexivity]).
  Qed.
End Near.
