(** * Lemmas: facet and vertex normals in floating point *)

From Coq Require Import List Arith Bool Lia Reals Lra ZArith.
From Flocq Require Import Core BinarySingleNaN.
From Verif Require Import Scalar Linal Result SpecReal VecR VecLemmas SpecIEEE SpecFloatErr SpecFloatSkew SpecFloatGap SpecFloatNormal ModelMesh SpecMesh
  ProofMesh ProofMeshOpp ProofMeshValid ProofMeshNormal ProofRound ProofIEEE ProofBoxIEEE ProofFloatErr ProofFloatNorm ProofFloatDist ProofFloatPlane ProofFloatCross ProofFloatSphere ProofFloatSkew ProofFloatGap
  PropFloatTess PropFloatPlane PropFloatCross PropFloatSkew.
Import ListNotations.
Local Open Scope R_scope.

(** ** The mesh *)
Section MESH.
  Context {S : Scalar} (L : Linal S) (a : addr) (ts : list (triangle S)) (m : mesh S) (Hwf : well_formed L a ts m).
  Lemma facet_points_exist k f : nth_error (m_facets m) k = Some f -> exists p0 p1 p2, facet_points m k p0 p1 p2.
  Proof.
    intros Hf. pose proof (nth_error_lt _ _ _ Hf) as Hk. rewrite (wf_facet_count _ _ _ _ Hwf) in Hk. destruct (nth_error_get _ _ Hk) as (t & Ht).
    destruct (wf_halfedge _ _ _ _ Hwf _ t 0%nat Ht ltac:(lia)) as (h0 & p0 & A1 & _ & _ & _ & _ & _ & A7 & _). rewrite Nat.add_0_r in A1.
    destruct (wf_halfedge _ _ _ _ Hwf _ t 1%nat Ht ltac:(lia)) as (h1 & p1 & B1 & _ & _ & _ & _ & _ & B7 & _).
    destruct (wf_halfedge _ _ _ _ Hwf _ t 2%nat Ht ltac:(lia)) as (h2 & p2 & C1 & _ & _ & _ & _ & _ & C7 & _).
    exists p0, p1, p2, h0, h1, h2. repeat (split; [assumption|]). assumption.
  Qed.
  Lemma facet_normal_points k f p0 p1 p2 : nth_error (m_facets m) k = Some f -> facet_points m k p0 p1 p2 ->
    calc_facet_normal (only a m) f = Ok (normalize (cross (vsub p1 p0) (vsub p2 p1))).
  Proof.
    intros Hf (h0 & h1 & h2 & A1 & B1 & C1 & A7 & B7 & C7).
    destruct (wf_facet _ _ _ _ Hwf _ _ Hf) as (F1 & F2).
    pose proof (nth_error_lt _ _ _ Hf) as Hk. rewrite (wf_facet_count _ _ _ _ Hwf) in Hk. destruct (nth_error_get _ _ Hk) as (t & Ht).
    destruct (wf_halfedge _ _ _ _ Hwf _ t 0%nat Ht ltac:(lia)) as (h0' & q0 & A1' & _ & _ & A4 & A5 & _). rewrite Nat.add_0_r, A1 in A1'. assert (h0' = h0) by congruence. subst h0'.
    destruct (wf_halfedge _ _ _ _ Hwf _ t 1%nat Ht ltac:(lia)) as (h1' & q1 & B1' & _ & _ & B4 & B5 & _). rewrite B1 in B1'. assert (h1' = h1) by congruence. subst h1'.
    destruct (wf_halfedge _ _ _ _ Hwf _ t 2%nat Ht ltac:(lia)) as (h2' & q2 & C1' & _ & _ & C4 & _). rewrite C1 in C1'. assert (h2' = h2) by congruence. subst h2'.
    change ((0 + 1) mod 3)%nat with 1%nat in A5. change ((1 + 1) mod 3)%nat with 2%nat in B5.
    assert (G : forall h p, nth_error (m_points m) (he_vertex h) = Some p -> he_ptr h = Some a ->
              exists u, getVertex (only a m) h = Ok u /\ getVector (only a m) u = Ok p).
    { intros h p Hp Hh. pose proof (nth_error_lt _ _ _ Hp) as L1. rewrite <- (wf_vertex_count _ _ _ _ Hwf) in L1.
      destruct (nth_error_get _ _ L1) as (u & Hu). destruct (wf_vertex _ _ _ _ Hwf _ _ Hu) as (U1 & U2 & _).
      exists u. unfold getVertex, getVector. rewrite Hh, deref_only. cbn [bind].
      rewrite (at_Ok _ _ _ Hu). split; [reflexivity|]. rewrite U2, deref_only. cbn [bind].
      unfold mesh_getVector. rewrite U1. apply at_Ok; exact Hp. }
    destruct (G h0 p0 A7 A4) as (u0 & E0 & V0). destruct (G h1 p1 B7 B4) as (u1 & E1 & V1). destruct (G h2 p2 C7 C4) as (u2 & E2 & V2).
    unfold calc_facet_normal, facet_getHalfedge. rewrite F2, deref_only. cbn [bind].
    rewrite F1, (at_Ok _ _ _ A1). cbn [bind].
    unfold getNext at 1. rewrite A4, deref_only. cbn [bind]. rewrite A5, (at_Ok _ _ _ B1). cbn [bind].
    rewrite E0. cbn [bind]. rewrite V0. cbn [bind]. rewrite E1. cbn [bind]. rewrite V1. cbn [bind].
    unfold getNextVertex, getNext. rewrite B4, deref_only. cbn [bind]. rewrite B5, (at_Ok _ _ _ C1). cbn [bind].
    rewrite E2. cbn [bind]. rewrite V2. reflexivity.
  Qed.
End MESH.

(** sorting and dropping neighbours keeps elements, and at least one of them *)
Lemma ins_sorted_in {A} (lt : A -> A -> bool) x l y : In y (ins_sorted lt x l) -> y = x \/ In y l.
Proof.
  induction l as [|z l IH]; cbn; [intros [->|[]]; auto|]. destruct (lt z x); cbn; [intros [->|H]; [auto|destruct (IH H); auto]|intros [->|H]; auto].
Qed.
Lemma ins_sorted_length {A} (lt : A -> A -> bool) x l : length (ins_sorted lt x l) = S (length l).
Proof. induction l as [|z l IH]; cbn; [reflexivity|]. destruct (lt z x); cbn; now rewrite ?IH. Qed.
Lemma std_sort_in {A} (lt : A -> A -> bool) l y : In y (std_sort lt l) -> In y l.
Proof. induction l as [|z l IH]; cbn; [auto|]. intros H. apply ins_sorted_in in H as [->|H]; auto. Qed.
Lemma std_sort_length {A} (lt : A -> A -> bool) l : length (std_sort lt l) = length l.
Proof. induction l as [|z l IH]; cbn; [reflexivity|]. rewrite ins_sorted_length. f_equal. exact IH. Qed.
Lemma std_unique_from_in {A} (eq : A -> A -> bool) l : forall x y, In y (std_unique_from eq x l) -> y = x \/ In y l.
Proof.
  induction l as [|z l IH]; cbn; intros x y; [intros [->|[]]; auto|]. destruct (eq x z); cbn; [intros H; destruct (IH _ _ H); auto|intros [->|H]; [auto|destruct (IH _ _ H); auto]].
Qed.
Lemma std_unique_from_length {A} (eq : A -> A -> bool) l : forall x, (1 <= length (std_unique_from eq x l) <= S (length l))%nat.
Proof. induction l as [|z l IH]; cbn; intros x; [lia|]. destruct (eq x z); cbn; [pose proof (IH x)|pose proof (IH z)]; lia. Qed.
Lemma std_unique_in {A} (eq : A -> A -> bool) l y : In y (std_unique eq l) -> In y l.
Proof. destruct l as [|x l]; cbn; [auto|]. intros H. apply std_unique_from_in in H as [->|H]; auto. Qed.
Lemma std_unique_length {A} (eq : A -> A -> bool) l : (length (std_unique eq l) <= length l)%nat /\ (l <> [] -> std_unique eq l <> []).
Proof.
  destruct l as [|x l]; cbn; [split; [lia|auto]|]. pose proof (std_unique_from_length eq l x) as H. split; [lia|]. intros _ Q. rewrite Q in H. cbn in H. lia.
Qed.
Lemma Forall2_in_r {A B} (P : A -> B -> Prop) l l' y : Forall2 P l l' -> In y l' -> exists x, In x l /\ P x y.
Proof.
  induction 1 as [|x z l l' H _ IH]; intros Hy; [destruct Hy|]. destruct Hy as [E|Hy]; [subst z; exists x; split; [left; reflexivity|exact H]|].
  destruct (IH Hy) as (x' & A1 & A2). exists x'. split; [right; exact A1|exact A2].
Qed.
Lemma mapM_length {A B} (f : A -> res B) l : forall r, mapM f l = Ok r -> length r = length l.
Proof.
  induction l as [|x l IH]; cbn; intros r H; [apply Ok_inj in H; now subst r|]. destruct (f x); try discriminate. cbn [bind] in H. destruct (mapM f l) as [s| | | |] eqn:E; try discriminate. cbn [bind] in H.
  apply Ok_inj in H. subst r. cbn. f_equal. apply IH. reflexivity.
Qed.
Lemma mapM_in {A B} (f : A -> res B) l : forall r y, mapM f l = Ok r -> In y r -> exists x, In x l /\ f x = Ok y.
Proof.
  induction l as [|x l IH]; cbn; intros r y H Hy; [apply Ok_inj in H; now subst r|]. destruct (f x) as [b| | | |] eqn:Ef; try discriminate. cbn [bind] in H. destruct (mapM f l) as [s| | | |] eqn:E; try discriminate. cbn [bind] in H.
  apply Ok_inj in H. subst r. destruct Hy as [->|Hy]; [exists x; auto|]. destruct (IH _ _ eq_refl Hy) as (z & A1 & A2). exists z. auto.
Qed.
Lemma mapM_total {A B} (f : A -> res B) l : (forall x, In x l -> exists y, f x = Ok y) -> exists r, mapM f l = Ok r.
Proof.
  induction l as [|x l IH]; intros H; [exists []; reflexivity|]. destruct (H x (or_introl eq_refl)) as (y & E). destruct IH as (r & Er); [intros z Hz; apply H; right; exact Hz|].
  exists (y :: r). cbn. rewrite E. cbn [bind]. rewrite Er. reflexivity.
Qed.

(** ** Real vectors *)
Lemma comp_le (v : vec R 3) i : (i < 3)%nat -> Rabs (vnth 0 i v) <= rnorm v.
Proof.
  intros Hi. apply abs_le_of_sq; [apply rnorm_nonneg|]. rewrite rnorm_sq. destruct v as (x & y & z & []). unfold rdot. cbn.
  pose proof (Rle_0_sqr x). pose proof (Rle_0_sqr y). pose proof (Rle_0_sqr z). unfold Rsqr in *. destruct i as [|[|[|i]]]; [| | |lia]; cbn; lra.
Qed.
Lemma comp_ge (v : vec R 3) : exists i, (i < 3)%nat /\ rnorm v <= 2 * Rabs (vnth 0 i v).
Proof.
  set (x := Rabs (vnth 0 0 v)). set (y := Rabs (vnth 0 1 v)). set (z := Rabs (vnth 0 2 v)).
  assert (K : forall b, x <= b -> y <= b -> z <= b -> rnorm v <= 2 * b).
  { intros b X Y Z. assert (0 <= x) by apply Rabs_pos. assert (Q : Rabs (rnorm v) <= 2 * b); [|rewrite Rabs_pos_eq in Q by apply rnorm_nonneg; exact Q].
    apply abs_le_of_sq; [lra|]. rewrite rnorm_sq. assert (E : rdot v v = x * x + y * y + z * z).
    { unfold x, y, z. rewrite <- !Rabs_mult. destruct v as (v1 & v2 & v3 & []). unfold rdot. cbn. rewrite !Rabs_pos_eq by apply Rle_0_sqr. ring. }
    rewrite E. assert (x * x <= b * b) by (apply Rmult_le_compat; try apply Rabs_pos; assumption). assert (y * y <= b * b) by (apply Rmult_le_compat; try apply Rabs_pos; assumption). assert (z * z <= b * b) by (apply Rmult_le_compat; try apply Rabs_pos; assumption).
    assert (0 <= b * b) by (apply Rle_0_sqr). lra. }
  destruct (Rle_lt_dec x y) as [A|A]; destruct (Rle_lt_dec y z) as [B|B].
  - exists 2%nat. split; [lia|]. apply K; fold z; lra.
  - exists 1%nat. split; [lia|]. apply K; fold y; lra.
  - destruct (Rle_lt_dec x z) as [C|C]; [exists 2%nat|exists 0%nat]; (split; [lia|]; apply K; fold z x; lra).
  - exists 0%nat. split; [lia|]. apply K; fold x; lra.
Qed.
Lemma rcross_near (a b A B : vec R 3) : rdist (rcross a b) (rcross A B) <= rdist a A * rnorm b + rnorm A * rdist b B.
Proof.
  unfold rdist at 1. replace (rsub (rcross a b) (rcross A B)) with (radd (rcross (rsub a A) b) (rcross A (rsub b B))).
  2:{ destruct a as (? & ? & ? & []), b as (? & ? & ? & []), A as (? & ? & ? & []), B as (? & ? & ? & []). unfold rcross, rsub, radd, mk3. cbn. repeat (apply f_equal2; [ring|]). reflexivity. }
  eapply Rle_trans; [apply rnorm_triangle|]. apply Rplus_le_compat; apply rcross_le.
Qed.

Section NRM.
Context {p e : Z} {Hp : Prec_gt_0 p} {He : Prec_lt_emax p e}.
Notation bf := (binary_float p e).
Notation u := (uround p).
Notation eta := (uflow p e).
Notation rnd := (rndf p e).
Notation zero := (B754_zero false : bf).
Context (fc fs fa : bf -> bf) (fpi : bf).
Let S := IEEE p e Hp He fc fs fa fpi.
Notation fadd := (@Bplus p e Hp He mode_NE).

Lemma p_large : 1024 * u <= 1 -> (10 <= p)%Z.
Proof. intros H. assert (Q : u <= bpow radix2 (-10)) by (cbn; lra). apply le_bpow in Q. lia. Qed.

(** ** A facet *)
Section FACET.
Context (Hu1 : 1024 * u <= 1) (k : Z) (p0 p1 p2 : vec bf 3) (F0 : finite_pt p0) (F1 : finite_pt p1) (F2 : finite_pt p2).
Context (HT : triangle_frame p e k (vreal p0) (vreal p1) (vreal p2)).
Let c := @cross S (@vsub S 3 p1 p0) (@vsub S 3 p2 p1) : vec bf 3.
Let E1 := rsub (vreal p1) (vreal p0).
Let E2 := rsub (vreal p2) (vreal p1).
Let C := rcross E1 E2.
Let s := corner_sine (vreal p0) (vreal p1) (vreal p2).

Lemma fn_cross : finite_pt c /\ 0 < rnorm C /\ 0 < s <= 1 /\ rdist (vreal c) C * s <= 86 / 10 * u * rnorm C /\ 7 / 10 * rnorm C <= rnorm (vreal c) /\
  rnorm C = rnorm E1 * rnorm E2 * s.
Proof.
  destruct HT as (k0 & K4 & M1 & M2 & Hs). pose proof (@u_pos p) as Hu. pose proof (@eta_pos p e) as Hh. change (@ProofFloatErr.eta p e) with eta in Hh. pose proof (p_large Hu1) as Hp10.
  set (x := rnorm E1). set (y := rnorm E2). change (rdist (vreal p1) (vreal p0)) with x in M1. change (rdist (vreal p2) (vreal p1)) with y in M2.
  assert (BK : bpow radix2 k <= bpow radix2 (e - 2)) by (apply bpow_le; lia).
  assert (B0 : 0 < bpow radix2 (- k)) by apply bpow_gt_0.
  pose proof (sub_finite_near fc fs fa fpi 3 p1 p0 ltac:(lra) F1 F0 ltac:(change (rdist (vreal p1) (vreal p0)) with x; lra)) as Fa. fold S in Fa.
  pose proof (sub_finite_near fc fs fa fpi 3 p2 p1 ltac:(lra) F2 F1 ltac:(change (rdist (vreal p2) (vreal p1)) with y; lra)) as Fb. fold S in Fb.
  pose proof (sub_err fc fs fa fpi 3 p1 p0 F1 F0 Fa) as Ea. fold S in Ea. pose proof (sub_err fc fs fa fpi 3 p2 p1 F2 F1 Fb) as Eb. fold S in Eb.
  change (rdist (vreal p1) (vreal p0)) with x in Ea. change (rdist (vreal p2) (vreal p1)) with y in Eb. fold E1 in Ea. fold E2 in Eb.
  set (va := @vsub S 3 p1 p0 : vec bf 3) in *. set (vb := @vsub S 3 p2 p1 : vec bf 3) in *.
  assert (Na : rnorm (vreal va) <= (1 + u) * x). { pose proof (rnorm_triangle E1 (rsub (vreal va) E1)) as Q. rewrite radd_rsub in Q. change (rnorm (rsub (vreal va) E1)) with (rdist (vreal va) E1) in Q. fold x in Q. lra. }
  assert (Nb : rnorm (vreal vb) <= (1 + u) * y). { pose proof (rnorm_triangle E2 (rsub (vreal vb) E2)) as Q. rewrite radd_rsub in Q. change (rnorm (rsub (vreal vb) E2)) with (rdist (vreal vb) E2) in Q. fold y in Q. lra. }
  assert (xy0 : 0 < x * y) by (apply Rmult_lt_0_compat; lra).
  assert (uu : u * u <= 1 / 1024 * u) by (apply Rmult_le_compat_r; lra).
  assert (Nab : rnorm (vreal va) * rnorm (vreal vb) <= 101 / 100 * (x * y)).
  { apply Rle_trans with ((1 + u) * x * ((1 + u) * y)); [apply Rmult_le_compat; try apply rnorm_nonneg; assumption|].
    replace ((1 + u) * x * ((1 + u) * y)) with ((1 + u) * (1 + u) * (x * y)) by ring. apply Rmult_le_compat_r; lra. }
  assert (xyB : x * y <= bpow radix2 (2 * k)). { replace (2 * k)%Z with (k + k)%Z by lia. rewrite bpow_plus. apply Rmult_le_compat; lra. }
  assert (xyb : bpow radix2 (- (2 * k)) <= x * y). { replace (- (2 * k))%Z with (- k + - k)%Z by lia. rewrite bpow_plus. apply Rmult_le_compat; lra. }
  assert (BB : 2 * bpow radix2 (2 * k) <= bpow radix2 (e - 2)). { change 2 with (bpow radix2 1) at 1. rewrite <- bpow_plus. apply bpow_le. lia. }
  destruct (cross_err fc fs fa fpi va vb ltac:(lra) Fa Fb ltac:(lra)) as (Fc & Ec). fold S in Fc, Ec. fold c in Fc, Ec.
  assert (hh : eta <= 1 / 100 * (u * (x * y))).
  { apply Rle_trans with (bpow radix2 (-10) * (u * bpow radix2 (- (2 * k)))).
    - unfold uround. rewrite <- !bpow_plus. apply bpow_le. lia.
    - assert (Q : u * bpow radix2 (- (2 * k)) <= u * (x * y)) by (apply Rmult_le_compat_l; lra). assert (0 < u * (x * y)) by (apply Rmult_lt_0_compat; lra). change (bpow radix2 (-10)) with (/ 1024). lra. }
  assert (EC : rnorm C = x * y * s). { unfold s, corner_sine, sine. fold E1 E2 C. fold x y. field. split; lra. }
  fold s in Hs. assert (s0 : 0 < s) by lra. assert (s1 : s <= 1). { unfold s, corner_sine, sine. fold E1 E2. fold x y. apply div_le; [exact xy0|]. rewrite Rmult_1_l. apply rcross_le. }
  assert (D : rdist (vreal c) C <= 86 / 10 * (u * (x * y))).
  { eapply Rle_trans; [apply (rdist_triangle _ (rcross (vreal va) (vreal vb)))|]. pose proof (rcross_near (vreal va) (vreal vb) E1 E2) as Q. fold C x in Q.
    assert (Q1 : rdist (vreal va) E1 * rnorm (vreal vb) <= u * x * ((1 + u) * y)) by (apply Rmult_le_compat; try apply rnorm_nonneg; assumption).
    assert (Q2 : x * rdist (vreal vb) E2 <= x * (u * y)) by (apply Rmult_le_compat_l; lra).
    assert (Q3 : u * (rnorm (vreal va) * rnorm (vreal vb)) <= u * (101 / 100 * (x * y))) by (apply Rmult_le_compat_l; lra).
    assert (Q4 : u * u * (x * y) <= 1 / 1024 * u * (x * y)) by (apply Rmult_le_compat_r; lra). assert (0 < u * (x * y)) by (apply Rmult_lt_0_compat; lra). lra. }
  assert (C0 : 0 < rnorm C) by (rewrite EC; apply Rmult_lt_0_compat; lra).
  split; [exact Fc|]. split; [exact C0|]. split; [split; assumption|]. split.
  - rewrite EC. replace (86 / 10 * u * (x * y * s)) with (86 / 10 * (u * (x * y)) * s) by ring. apply Rmult_le_compat_r; lra.
  - split; [|exact EC]. pose proof (rnorm_triangle (vreal c) (rsub C (vreal c))) as Q. rewrite radd_rsub in Q. change (rnorm (rsub C (vreal c))) with (rdist C (vreal c)) in Q. rewrite rdist_sym in Q.
    assert (86 / 10 * (u * (x * y)) <= 3 / 10 * rnorm C); [|lra]. rewrite EC. assert (40 * u * (x * y) <= s * (x * y)) by (apply Rmult_le_compat_r; lra). assert (0 < u * (x * y)) by (apply Rmult_lt_0_compat; lra). lra.
Qed.

Lemma fn_normal : let n := @normalize S 3 c : vec bf 3 in finite_pt n /\ Rabs (rnorm (vreal n) - 1) <= 6 * u /\ rdist (vreal n) (rdirection C) <= facet_bound p s /\
  unit_normal (rdirection C) (vreal p0) (vreal p1) (vreal p2).
Proof.
  intros n. destruct fn_cross as (Fc & C0 & (s0 & s1) & D & N7 & EC). destruct HT as (k0 & K4 & M1 & M2 & Hs). fold s in Hs. pose proof (@u_pos p) as Hu. pose proof (p_large Hu1) as Hp10.
  set (x := rnorm E1) in *. set (y := rnorm E2) in *. change (rdist (vreal p1) (vreal p0)) with x in M1. change (rdist (vreal p2) (vreal p1)) with y in M2.
  assert (B0 : 0 < bpow radix2 (- k)) by apply bpow_gt_0.
  assert (xyB : x * y <= bpow radix2 (2 * k)). { replace (2 * k)%Z with (k + k)%Z by lia. rewrite bpow_plus. apply Rmult_le_compat; lra. }
  assert (xyb : bpow radix2 (- (2 * k)) <= x * y). { replace (- (2 * k))%Z with (- k + - k)%Z by lia. rewrite bpow_plus. apply Rmult_le_compat; lra. }
  assert (xy0 : 0 < x * y) by (apply Rmult_lt_0_compat; lra).
  assert (CB : rnorm C <= x * y). { rewrite EC. assert (x * y * s <= x * y * 1) by (apply Rmult_le_compat_l; lra). lra. }
  assert (NB : rnorm (vreal c) <= 2 * (x * y)).
  { pose proof (rnorm_triangle C (rsub (vreal c) C)) as Q. rewrite radd_rsub in Q. change (rnorm (rsub (vreal c) C)) with (rdist (vreal c) C) in Q.
    assert (Q2 : rdist (vreal c) C <= rnorm C); [|lra]. apply Rmult_le_reg_r with s; [exact s0|]. assert (40 * u * rnorm C <= s * rnorm C) by (apply Rmult_le_compat_r; lra). assert (0 < u * rnorm C) by (apply Rmult_lt_0_compat; lra). lra. }
  assert (Mc : moderate (3 - p - 2 * k) (2 * k + 1) c).
  { split; [exact Fc|]. split; [lia|]. split; [|split].
    - replace (INR 3) with 3 by (cbn; ring). apply Rle_trans with (bpow radix2 2 * bpow radix2 (2 * (2 * k + 1))); [apply Rmult_le_compat_r; [apply bpow_ge_0|cbn; lra]|]. rewrite <- bpow_plus. apply bpow_le. lia.
    - intros i Hi. rewrite <- vnth_real. eapply Rle_trans; [apply comp_le, Hi|]. eapply Rle_trans; [exact NB|]. rewrite bpow_plus. change (bpow radix2 1) with 2. lra.
    - destruct (comp_ge (vreal c)) as (i & Hi & Gi). exists i. split; [exact Hi|]. rewrite <- vnth_real.
      assert (Q : bpow radix2 (3 - p - 2 * k) <= 8 * (u * (x * y))).
      { replace (3 - p - 2 * k)%Z with (3 + (- p + - (2 * k)))%Z by lia. rewrite !bpow_plus. change (bpow radix2 3) with 8. apply Rmult_le_compat_l; [lra|]. unfold uround. apply Rmult_le_compat_l; [apply bpow_ge_0|exact xyb]. }
      assert (40 * u * (x * y) <= s * (x * y)) by (apply Rmult_le_compat_r; lra). rewrite EC in N7. assert (0 < u * (x * y)) by (apply Rmult_lt_0_compat; lra). lra. }
  destruct (normalize_err fc fs fa fpi 3 c (3 - p - 2 * k) (2 * k + 1) ltac:(cbn [INR]; lra) Mc) as (Fn & En). fold S in Fn, En. fold n in Fn, En. replace (INR 3 + 3) with 6 in En by (cbn; ring).
  assert (c0 : 0 < rnorm (vreal c)) by lra.
  split; [exact Fn|]. split.
  { eapply Rle_trans; [|exact En]. apply norm_near. apply rnorm_normalize. intros Q. rewrite Q, rnorm_rzero in c0. lra. }
  split.
  - unfold facet_bound. apply Rmult_le_reg_r with s; [exact s0|]. replace (24 * u / s * s) with (24 * u) by (field; lra).
    pose proof (unit_diff (vreal c) C c0 C0) as UD.
    assert (T : rdist (vreal n) (rdirection C) <= 6 * u + 2 * rdist (vreal c) C / rnorm C).
    { eapply Rle_trans; [apply (rdist_triangle _ (rdirection (vreal c)))|]. apply Rplus_le_compat; [exact En|exact UD]. }
    apply Rle_trans with ((6 * u + 2 * rdist (vreal c) C / rnorm C) * s); [apply Rmult_le_compat_r; lra|].
    assert (Q : 2 * rdist (vreal c) C / rnorm C * s <= 172 / 10 * u).
    { apply Rmult_le_reg_r with (rnorm C); [exact C0|]. replace (2 * rdist (vreal c) C / rnorm C * s * rnorm C) with (2 * (rdist (vreal c) C * s)) by (field; lra). lra. }
    assert (u * s <= u * 1) by (apply Rmult_le_compat_l; lra). lra.
  - assert (EQ : C = rcross (rsub (vreal p1) (vreal p0)) (rsub (vreal p2) (vreal p0))) by (unfold C, E1, E2; apply rcross_shift).
    assert (N1 : rnorm (rdirection C) = 1) by (apply rnorm_normalize; intros Q; rewrite Q, rnorm_rzero in C0; lra).
    unfold unit_normal. split; [exact N1|]. rewrite <- EQ. unfold rdirection. rewrite !rdot_scale_l, <- rnorm_sq.
    split; [rewrite EQ, rcross_orth_l; ring|]. split; [rewrite EQ, rcross_orth_r; ring|]. replace (/ rnorm C * (rnorm C * rnorm C)) with (rnorm C) by (field; lra). exact C0.
Qed.

(** normalised once more, as calc_vertex_normals does *)
Lemma fn_again : let n := @normalize S 3 (@normalize S 3 c) : vec bf 3 in finite_pt n /\ rdist (vreal n) (rdirection C) <= facet_bound2 p s /\ rnorm (vreal n) <= 1 + 6 * u.
Proof.
  intros n. destruct fn_normal as (F & U & D & _). set (w := @normalize S 3 c : vec bf 3) in *. destruct fn_cross as (_ & _ & (s0 & s1) & _). pose proof (@u_pos p) as Hu. pose proof (p_large Hu1) as Hp10.
  assert (He0 : (p < e)%Z) by exact He. destruct HT as (k0 & K4 & _). apply Rabs_le_inv in U.
  assert (Mw : moderate (-2) 1 w).
  { split; [exact F|]. split; [lia|]. split; [|split].
    - replace (INR 3) with 3 by (cbn; ring). apply Rle_trans with (bpow radix2 2 * bpow radix2 (2 * 1)); [apply Rmult_le_compat_r; [apply bpow_ge_0|cbn; lra]|]. rewrite <- bpow_plus. apply bpow_le. lia.
    - intros i Hi. rewrite <- vnth_real. eapply Rle_trans; [apply comp_le, Hi|]. change (bpow radix2 1) with 2. lra.
    - destruct (comp_ge (vreal w)) as (i & Hi & Gi). exists i. split; [exact Hi|]. rewrite <- vnth_real. change (bpow radix2 (-2)) with (/ 4). lra. }
  destruct (normalize_err fc fs fa fpi 3 w (-2) 1 ltac:(cbn [INR]; lra) Mw) as (Fn & En). fold S in Fn, En. fold n in Fn, En. replace (INR 3 + 3) with 6 in En by (cbn; ring).
  assert (w0 : 0 < rnorm (vreal w)) by lra. assert (N1 : rnorm (rdirection (vreal w)) = 1) by (apply rnorm_normalize; intros Q; rewrite Q, rnorm_rzero in w0; lra).
  split; [exact Fn|]. split.
  - assert (T : rdist (rdirection (vreal w)) (vreal w) <= 6 * u).
    { unfold rdist. replace (rsub (rdirection (vreal w)) (vreal w)) with (rscale (1 - rnorm (vreal w)) (rdirection (vreal w))).
      - rewrite rnorm_scale, N1, Rmult_1_r. apply Rabs_le. lra.
      - unfold rdirection. rewrite rscale_scale. replace ((1 - rnorm (vreal w)) * / rnorm (vreal w)) with (/ rnorm (vreal w) - 1) by (field; lra). apply eq_by_dot. vring. }
    unfold facet_bound2. apply Rle_trans with (12 * u + facet_bound p s).
    + eapply Rle_trans; [apply (rdist_triangle _ (rdirection (vreal w)))|]. eapply Rle_trans; [apply Rplus_le_compat_l, (rdist_triangle _ (vreal w))|]. lra.
    + unfold facet_bound. apply Rmult_le_reg_r with s; [exact s0|]. replace (36 * u / s * s) with (36 * u) by (field; lra). replace ((12 * u + 24 * u / s) * s) with (12 * (u * s) + 24 * u) by (field; lra).
      assert (u * s <= u * 1) by (apply Rmult_le_compat_l; lra). lra.
  - pose proof (norm_near 3 (vreal n) (rdirection (vreal w)) N1) as Q. apply Rabs_le_inv in Q. lra.
Qed.
End FACET.

(** ** The sum of the normals *)
Lemma vadd_err (a b : vec bf 3) : finite_pt a -> finite_pt b -> rnorm (vreal a) + rnorm (vreal b) <= bpow radix2 (e - 1) ->
  finite_pt (@vadd S 3 a b : vec bf 3) /\ rdist (vreal (@vadd S 3 a b : vec bf 3)) (radd (vreal a) (vreal b)) <= u * rnorm (radd (vreal a) (vreal b)).
Proof.
  intros Fa Fb HB. pose proof (@u_pos p) as Hu.
  assert (K : forall i, (i < 3)%nat -> fin (vnth zero i (@vadd S 3 a b : vec bf 3)) /\ fval i (@vadd S 3 a b : vec bf 3) = rnd (fval i a + fval i b)).
  { intros i Hi. assert (Q : vnth zero i (@vadd S 3 a b : vec bf 3) = fadd (vnth zero i a) (vnth zero i b)) by (unfold vadd; rewrite (vnth_vmap2 zero zero) by exact Hi; reflexivity).
    unfold fval. rewrite Q. apply add_ok; [apply Fa, Hi|apply Fb, Hi|]. apply rnd_small. eapply Rle_trans; [apply Rabs_triang|].
    pose proof (comp_le (vreal a) i Hi) as A. pose proof (comp_le (vreal b) i Hi) as B. rewrite vnth_real in A, B. unfold fval in A, B. lra. }
  split; [intros i Hi; apply K, Hi|]. unfold rdist. rewrite <- (Rplus_0_r (u * _)). rewrite <- (Rmult_0_r (INR 3)). apply rnorm_errors; [lra|lra|].
  intros i Hi. rewrite Rplus_0_r. unfold rsub, radd. rewrite (vnth_vmap2 0 0), !(vnth_vmap2 0 0 0), !vnth_real by exact Hi. rewrite (proj2 (K i Hi)). apply rnd_sum; apply (generic_format_B2R p e).
Qed.
Lemma sum_err (Hu1 : 1024 * u <= 1) (l : list (vec bf 3)) : forall (acc : vec bf 3) (A : vec R 3) (j : nat), finite_pt acc ->
  (forall x, In x l -> finite_pt x /\ rnorm (vreal x) <= 17 / 16) -> 32 * (INR j + INR (length l)) * u <= 1 -> rnorm A <= 17 / 16 * INR j ->
  rdist (vreal acc) A <= 6 / 5 * u * (INR j * INR j) ->
  let s := fold_left (@vadd S 3) l acc : vec bf 3 in
  finite_pt s /\ rdist (vreal s) (radd A (rsum (map (@vreal p e 3) l))) <= 6 / 5 * u * ((INR j + INR (length l)) * (INR j + INR (length l))).
Proof.
  pose proof (@u_pos p) as Hu. pose proof (p_large Hu1) as Hp10. assert (He0 : (p < e)%Z) by exact He.
  induction l as [|x l IH]; intros acc A j Fa Hl HJ HA HD s.
  - cbn [length INR map] in *. unfold rsum. cbn [fold_right]. rewrite radd_zero_r, Rplus_0_r. split; [exact Fa|exact HD].
  - assert (J0 : 0 <= INR j) by apply pos_INR. assert (L0 : 0 <= INR (length l)) by apply pos_INR. cbn [length] in HJ. rewrite S_INR in HJ.
    destruct (Hl x (or_introl eq_refl)) as (Fx & Nx).
    assert (ul0 : 0 <= u * INR (length l)) by (apply Rmult_le_pos; lra). assert (uj0 : 0 <= u * INR j) by (apply Rmult_le_pos; lra).
    assert (uJ : u * INR j <= 1 / 32) by lra. assert (uJ1 : u * (INR j + 1) <= 1 / 32) by lra.
    assert (NA : rnorm (vreal acc) <= 17 / 16 * INR j + 12 / 320 * INR j).
    { pose proof (rnorm_triangle A (rsub (vreal acc) A)) as Q. rewrite radd_rsub in Q. change (rnorm (rsub (vreal acc) A)) with (rdist (vreal acc) A) in Q.
      assert (u * INR j * INR j <= 1 / 32 * INR j) by (apply Rmult_le_compat_r; lra). lra. }
    assert (BIG : INR j + 1 <= bpow radix2 (e - 3)).
    { apply Rle_trans with (bpow radix2 (p - 5)); [|apply bpow_le; lia]. apply Rmult_le_reg_l with u; [lra|]. unfold uround in uJ1 |- *. rewrite <- bpow_plus. replace (- p + (p - 5))%Z with (-5)%Z by lia. cbn. lra. }
    assert (E4 : bpow radix2 (e - 1) = 4 * bpow radix2 (e - 3)) by (replace (e - 1)%Z with (2 + (e - 3))%Z by lia; rewrite bpow_plus; reflexivity).
    destruct (vadd_err acc x Fa Fx ltac:(lra)) as (Fy & Ey). set (y := @vadd S 3 acc x : vec bf 3) in *.
    specialize (IH y (radd A (vreal x)) (Datatypes.S j) Fy). cbv zeta in IH. rewrite S_INR in IH. destruct IH as (I1 & I2).
    + intros z Hz. apply Hl. right. exact Hz.
    + lra.
    + eapply Rle_trans; [apply rnorm_triangle|]. lra.
    + eapply Rle_trans; [apply (rdist_triangle _ (radd (vreal acc) (vreal x)))|].
      assert (Q : rdist (radd (vreal acc) (vreal x)) (radd A (vreal x)) = rdist (vreal acc) A) by (unfold rdist; f_equal; apply eq_by_dot; vring). rewrite Q.
      assert (N : rnorm (radd (vreal acc) (vreal x)) <= 11 / 10 * INR j + 17 / 16) by (eapply Rle_trans; [apply rnorm_triangle|]; lra).
      assert (u * rnorm (radd (vreal acc) (vreal x)) <= u * (11 / 10 * INR j + 17 / 16)) by (apply Rmult_le_compat_l; lra).
      assert (0 <= u * INR j) by (apply Rmult_le_pos; lra). lra.
    + split; [exact I1|]. cbn [length]. rewrite S_INR. cbn [map]. change (rsum (vreal x :: map (@vreal p e 3) l)) with (radd (vreal x) (rsum (map (@vreal p e 3) l))).
      replace (radd A (radd (vreal x) (rsum (map (@vreal p e 3) l)))) with (radd (radd A (vreal x)) (rsum (map (@vreal p e 3) l))) by (apply eq_by_dot; vring).
      replace (INR j + (INR (length l) + 1)) with (INR j + 1 + INR (length l)) by ring. exact I2.
Qed.
End NRM.
