(** * Property theorems: facet and vertex normals in floating point (C77) *)

From Coq Require Import List Arith Bool Lia Reals Lra ZArith Permutation.
From Flocq Require Import Core BinarySingleNaN.
From Verif Require Import Scalar Linal Result SpecReal VecR VecLemmas SpecIEEE SpecFloatErr SpecFloatSkew SpecFloatGap SpecFloatNormal ModelMesh SpecMesh
  ProofMesh ProofMeshOpp ProofMeshValid ProofMeshMisc ProofMeshNormal ProofRound ProofIEEE ProofBoxIEEE ProofFloatErr ProofFloatNorm ProofFloatDist ProofFloatPlane ProofFloatCross ProofFloatSphere ProofFloatSkew ProofFloatGap ProofFloatNormal
  PropFloatTess PropFloatPlane PropFloatCross PropFloatSkew PropNormals.
Import ListNotations.
Local Open Scope R_scope.

(** ** C77: the computed normal of a facet that is not a sliver for the precision is
    finite and near the unit normal of the triangle that the mesh stores *)
Theorem C77_facet_normal :
  forall (p e : Z) (Hp : Prec_gt_0 p) (He : Prec_lt_emax p e) f g h pi, let S := IEEE p e Hp He f g h pi in
  forall (L : Linal S) (a : addr) (ts : list (triangle S)) (m : mesh S), well_formed L a ts m -> 1024 * uround p <= 1 ->
  forall k fa (p0 p1 p2 : vec (binary_float p e) 3), nth_error (m_facets m) k = Some fa -> @facet_points S m k p0 p1 p2 ->
    finite_pt p0 -> finite_pt p1 -> finite_pt p2 ->
  forall K, triangle_frame p e K (vreal p0) (vreal p1) (vreal p2) ->
  exists n : vec (binary_float p e) 3, calc_facet_normal (only a m) fa = Ok n /\ finite_pt n /\ Rabs (rnorm (vreal n) - 1) <= 6 * uround p /\
    exists N, unit_normal N (vreal p0) (vreal p1) (vreal p2) /\ rdist (vreal n) N <= facet_bound p (corner_sine (vreal p0) (vreal p1) (vreal p2)).
Proof.
  intros p e Hp He f g h pi S L a ts m Hw Hu k fa p0 p1 p2 Hk Hpt F0 F1 F2 K HT.
  exists (@normalize S 3 (@cross S (@vsub S 3 p1 p0) (@vsub S 3 p2 p1))).
  split; [exact (facet_normal_points L a ts m Hw k fa p0 p1 p2 Hk Hpt)|].
  destruct (fn_normal f g h pi Hu K p0 p1 p2 F0 F1 F2 HT) as (A & B & C & D). split; [exact A|]. split; [exact B|].
  exists (rdirection (rcross (rsub (vreal p1) (vreal p0)) (rsub (vreal p2) (vreal p1)))). split; [exact D|exact C].
Qed.
Print Assumptions C77_facet_normal.

Lemma side_near (a b w : vec R 3) d : rnorm w = 1 -> rdist a b <= d -> rdot b w - d <= rdot a w.
Proof.
  intros W H. assert (Q : rdot a w = rdot b w + rdot (rsub a b) w) by (rewrite rdot_sub_l; ring). pose proof (cauchy_schwarz (rsub a b) w) as C.
  rewrite W, Rmult_1_r in C. change (rnorm (rsub a b)) with (rdist a b) in C. apply Rabs_le_inv in C. lra.
Qed.
Lemma rsum_side (l : list (vec R 3)) w nu : (forall x, In x l -> nu <= rdot x w) -> INR (length l) * nu <= rdot (rsum l) w.
Proof.
  induction l as [|x l IH]; intros H; [cbn [length INR]; unfold rsum, rdot, rzero; cbn; lra|].
  cbn [length]. rewrite S_INR. change (rsum (x :: l)) with (radd x (rsum l)). rewrite rdot_add_l. pose proof (H x (or_introl eq_refl)). pose proof (IH (fun y Hy => H y (or_intror Hy))). lra.
Qed.
Lemma rsum_norm (l : list (vec R 3)) b : (forall x, In x l -> rnorm x <= b) -> rnorm (rsum l) <= INR (length l) * b.
Proof.
  induction l as [|x l IH]; intros H; [cbn [length INR]; change (rsum []) with (@rzero 3); rewrite rnorm_rzero; lra|].
  cbn [length]. rewrite S_INR. change (rsum (x :: l)) with (radd x (rsum l)). pose proof (rnorm_triangle x (rsum l)). pose proof (H x (or_introl eq_refl)). pose proof (IH (fun y Hy => H y (or_intror Hy))). lra.
Qed.

(** ** C77: the computed normal of a vertex all of whose facets face the same side is
    finite, nearly of length one, and faces that side.  This needs nothing of the
    comparison used to drop repeated normals. *)
Theorem C77_vertex_normal :
  forall (p e : Z) (Hp : Prec_gt_0 p) (He : Prec_lt_emax p e) f g h pi, let S := IEEE p e Hp He f g h pi in
  forall (L : Linal S) (a : addr) (ts : list (triangle S)) (m : mesh S), well_formed L a ts m -> 1024 * uround p <= 1 ->
  forall v x w mu sg, nth_error (m_vertices m) v = Some x -> rnorm w = 1 -> 0 < sg ->
    @faces_side p e Hp He f g h pi m v w mu sg ->
    let cnt := INR (length (v_hes x)) in let mu' := mu - facet_bound2 p sg - 6 / 5 * cnt * uround p in
    32 * cnt * uround p <= 1 -> 13 * uround p <= mu' ->
  exists n : vec (binary_float p e) 3, vertex_normal L (only a m) x = Ok n /\ finite_pt n /\ Rabs (rnorm (vreal n) - 1) <= 6 * uround p /\
    10 / 11 * mu' - 6 * uround p <= rdot (vreal n) w /\ mu' - (6 / 5 * cnt + 12) * uround p <= rdot (vreal n) w /\ 0 < rdot (vreal n) w.
Proof.
  intros p e Hp He f g h pi S L a ts m Hw Hu v x w mu sg Hv Hw1 Hsg HF cnt mu' Hc Hm.
  pose proof (@u_pos p) as U. pose proof (p_large Hu) as Hp10. assert (He0 : (p < e)%Z) by exact He.
  destruct (calc_vertex_facets_ok L a ts m Hw v x Hv) as (ks & fs & E & H2 & _ & Hin).
  destruct (wf_vertex _ _ _ _ Hw _ _ Hv) as (_ & _ & V3 & _ & V5).
  (* the number of facets *)
  assert (Hlen : length fs = length (v_hes x)).
  { unfold calc_vertex_facets in E. destruct (calcHalfedges (only a m) x) as [hs| | | |] eqn:Eh; try discriminate E. cbn [bind] in E.
    apply mapM_length in E. unfold calcHalfedges in Eh. apply mapM_length in Eh. congruence. }
  set (nrm := fun fa => let* n := calc_facet_normal (only a m) fa in Ok (normalize n)) in *.
  assert (Hsq : (6 + 2 * p <= e)%Z).
  { destruct (v_hes x) as [|i hs] eqn:Eh; [congruence|]. destruct (proj1 (V5 i) (or_introl eq_refl)) as (hh & A1 & A2).
    destruct (HF (i / 3)%nat (i mod 3)%nat hh) as (q0 & q1 & q2 & K & N & _ & _ & _ & _ & (k0 & K4 & _) & _);
      [apply Nat.mod_upper_bound; lia| |exact A2|lia]. rewrite <- Nat.div_mod by lia. exact A1. }
  assert (FN : forall fa, In fa fs -> exists y : vec (binary_float p e) 3, nrm fa = Ok y /\ finite_pt y /\ rnorm (vreal y) <= 1 + 6 * uround p /\ mu - facet_bound2 p sg <= rdot (vreal y) w).
  { intros fa Hfa. destruct (Forall2_in_r _ _ _ _ H2 Hfa) as (k & Hk & Ek). destruct (proj1 (Hin k) Hk) as (c & hh & C3 & A1 & A2).
    destruct (HF k c hh C3 A1 A2) as (q0 & q1 & q2 & K & N & Hpt & F0 & F1 & F2 & HT & Hsn & HN & Hmu).
    exists (@normalize S 3 (@normalize S 3 (@cross S (@vsub S 3 q1 q0) (@vsub S 3 q2 q1)))).
    split; [unfold nrm; rewrite (facet_normal_points L a ts m Hw k fa q0 q1 q2 Ek Hpt); reflexivity|].
    destruct (fn_again f g h pi Hu K q0 q1 q2 F0 F1 F2 HT) as (B1 & B2 & B3). split; [exact B1|]. split; [exact B3|].
    destruct (fn_normal f g h pi Hu K q0 q1 q2 F0 F1 F2 HT) as (_ & _ & _ & UN). rewrite (unit_normal_unique _ _ _ _ _ UN HN) in B2.
    assert (Q : facet_bound2 p (corner_sine (vreal q0) (vreal q1) (vreal q2)) <= facet_bound2 p sg).
    { unfold facet_bound2. apply Rmult_le_compat_l; [lra|]. apply Rinv_le; assumption. }
    pose proof (side_near _ _ w _ Hw1 B2) as R1. eapply Rle_trans; [|exact R1]. lra. }
  destruct (mapM_total nrm fs) as (ns & En); [intros fa Hfa; destruct (FN fa Hfa) as (y & Ey & _); exists y; exact Ey|].
  set (ds := std_unique (@veq S L 3) (std_sort (@lex_lt S) ns)).
  assert (Dn : forall y : vec (binary_float p e) 3, In y ds -> finite_pt y /\ rnorm (vreal y) <= 1 + 6 * uround p /\ mu - facet_bound2 p sg <= rdot (vreal y) w).
  { intros y Hy. apply std_unique_in, std_sort_in in Hy. destruct (mapM_in _ _ _ _ En Hy) as (fa & Hfa & Ey). destruct (FN fa Hfa) as (y' & Ey' & R). rewrite Ey in Ey'. apply Ok_inj in Ey'. subst y'. exact R. }
  assert (Ln : length ns = length (v_hes x)) by (apply mapM_length in En; congruence).
  assert (Nn : ns <> []) by (intros Q; rewrite Q in Ln; cbn in Ln; destruct (v_hes x); [congruence|discriminate Ln]).
  assert (Ld : (1 <= length ds <= length (v_hes x))%nat).
  { destruct (std_unique_length (@veq S L 3) (std_sort (@lex_lt S) ns)) as (A1 & A2). fold ds in A1, A2. rewrite std_sort_length, Ln in A1.
    assert (A3 : std_sort (@lex_lt S) ns <> []) by (intros Q; pose proof (std_sort_length (@lex_lt S) ns) as Q2; rewrite Q in Q2; apply Nn; destruct ns; [reflexivity|discriminate Q2]).
    specialize (A2 A3). destruct ds; [congruence|]. cbn in *. lia. }
  set (q := INR (length ds)). assert (q1 : 1 <= q) by (unfold q; change 1 with (INR 1); apply le_INR; lia). assert (qc : q <= cnt) by (apply le_INR; lia).
  assert (qu : q * uround p <= cnt * uround p) by (apply Rmult_le_compat_r; lra).
  set (zv := mk3 (@s0 S) (@s0 S) (@s0 S) : vec (binary_float p e) 3).
  assert (Ez : vreal zv = rzero) by reflexivity.
  destruct (sum_err f g h pi Hu ds zv rzero 0%nat) as (Fs & Es).
  { intros [|[|[|i]]] Hi; try lia; reflexivity. }
  { intros y Hy. destruct (Dn y Hy) as (A1 & A2 & _). split; [exact A1|]. lra. }
  { change (INR 0) with 0. change (32 * (0 + q) * uround p <= 1). lra. }
  { rewrite rnorm_rzero. change (INR 0) with 0. lra. }
  { rewrite Ez, rdist_self. change (INR 0) with 0. lra. }
  change (INR 0) with 0 in Es. change (INR (length ds)) with q in Es. rewrite !Rplus_0_l in Es. set (s := fold_left (@vadd S 3) ds zv : vec (binary_float p e) 3). change (finite_pt s) in Fs.
  set (Z := rsum (map (@vreal p e 3) ds)) in *. assert (Ez2 : radd rzero Z = Z) by (apply eq_by_dot; vring). rewrite Ez2 in Es.
  change (rdist (vreal s) Z <= 6 / 5 * uround p * (q * q)) in Es.
  assert (Lq : INR (length (map (@vreal p e 3) ds)) = q) by (unfold q; f_equal; exact (map_length (@vreal p e 3) ds)).
  assert (Zs : q * (mu - facet_bound2 p sg) <= rdot Z w).
  { rewrite <- Lq. apply rsum_side. intros y Hy. apply in_map_iff in Hy as (y' & <- & Hy). apply (Dn y' Hy). }
  assert (Zn : rnorm Z <= q * (1 + 6 * uround p)).
  { rewrite <- Lq. apply rsum_norm. intros y Hy. apply in_map_iff in Hy as (y' & <- & Hy). apply (Dn y' Hy). }
  assert (qq : q * (q * uround p) <= q * (cnt * uround p)) by (apply Rmult_le_compat_l; lra).
  assert (Ss : q * mu' <= rdot (vreal s) w). { pose proof (side_near _ _ w _ Hw1 Es) as K. unfold mu'. lra. }
  assert (qq2 : q * (q * uround p) <= q * (1 / 32)) by (apply Rmult_le_compat_l; lra).
  assert (qu6 : q * (6 * uround p) <= q * (1 / 16)) by (apply Rmult_le_compat_l; lra).
  assert (Sn' : rnorm (vreal s) <= q * (1 + (6 + 6 / 5 * cnt) * uround p)).
  { pose proof (rnorm_triangle Z (rsub (vreal s) Z)) as K. rewrite radd_rsub in K. change (rnorm (rsub (vreal s) Z)) with (rdist (vreal s) Z) in K. lra. }
  assert (Sn : rnorm (vreal s) <= 11 / 10 * q).
  { pose proof (rnorm_triangle Z (rsub (vreal s) Z)) as K. rewrite radd_rsub in K. change (rnorm (rsub (vreal s) Z)) with (rdist (vreal s) Z) in K. lra. }
  assert (Sw : rdot (vreal s) w <= rnorm (vreal s)). { pose proof (cauchy_schwarz (vreal s) w) as K. rewrite Hw1, Rmult_1_r in K. apply Rabs_le_inv in K. lra. }
  assert (qm : mu' <= q * mu') by (assert (1 * mu' <= q * mu') by (apply Rmult_le_compat_r; lra); lra).
  assert (Ms : moderate (2 - p) (p - 4) s).
  { split; [exact Fs|]. split; [lia|]. split; [|split].
    - replace (INR 3) with 3 by (cbn; ring). apply Rle_trans with (bpow radix2 2 * bpow radix2 (2 * (p - 4))); [apply Rmult_le_compat_r; [apply bpow_ge_0|cbn; lra]|]. rewrite <- bpow_plus. apply bpow_le. lia.
    - intros i Hi. rewrite <- vnth_real. eapply Rle_trans; [apply comp_le, Hi|]. eapply Rle_trans; [exact Sn|].
      apply Rmult_le_reg_r with (uround p); [exact U|]. unfold uround at 2. rewrite <- bpow_plus. replace (p - 4 + - p)%Z with (-4)%Z by lia. change (bpow radix2 (-4)) with (/ 16). lra.
    - destruct (comp_ge (vreal s)) as (i & Hi & Gi). exists i. split; [exact Hi|]. rewrite <- vnth_real. unfold Z.sub. rewrite bpow_plus. change (bpow radix2 2) with 4. fold (uround p). lra. }
  destruct (normalize_err f g h pi 3 s (2 - p) (p - 4) ltac:(cbn [INR]; lra) Ms) as (Fn & Err). replace (INR 3 + 3) with 6 in Err by (cbn; ring).
  set (n := @normalize S 3 s : vec (binary_float p e) 3) in *.
  assert (s0 : 0 < rnorm (vreal s)) by lra. assert (N1 : rnorm (rdirection (vreal s)) = 1) by (apply rnorm_normalize; intros Q; rewrite Q, rnorm_rzero in s0; lra).
  exists n. split; [unfold vertex_normal; rewrite E; cbn [bind]; fold nrm; rewrite En; reflexivity|]. split; [exact Fn|]. split; [eapply Rle_trans; [apply (norm_near 3 _ _ N1)|exact Err]|].
  assert (T : 10 / 11 * mu' <= rdot (rdirection (vreal s)) w).
  { unfold rdirection. rewrite rdot_scale_l. apply Rmult_le_reg_r with (rnorm (vreal s)); [exact s0|]. replace (/ rnorm (vreal s) * rdot (vreal s) w * rnorm (vreal s)) with (rdot (vreal s) w) by (field; lra).
    assert (10 / 11 * mu' * rnorm (vreal s) <= 10 / 11 * mu' * (11 / 10 * q)) by (apply Rmult_le_compat_l; lra). lra. }
  assert (T2 : mu' - (6 + 6 / 5 * cnt) * uround p <= rdot (rdirection (vreal s)) w).
  { unfold rdirection. rewrite rdot_scale_l. apply Rmult_le_reg_r with (rnorm (vreal s)); [exact s0|]. replace (/ rnorm (vreal s) * rdot (vreal s) w * rnorm (vreal s)) with (rdot (vreal s) w) by (field; lra).
    set (de := (6 + 6 / 5 * cnt) * uround p) in *. assert (d0 : 0 <= de) by (apply Rmult_le_pos; lra).
    destruct (Rle_lt_dec (mu' - de) 0) as [Q|Q].
    - assert (0 <= (de - mu') * rnorm (vreal s)) by (apply Rmult_le_pos; lra). assert (0 <= q * mu') by (apply Rmult_le_pos; lra). lra.
    - assert (A1 : (mu' - de) * rnorm (vreal s) <= (mu' - de) * (q * (1 + de))) by (apply Rmult_le_compat_l; lra).
      assert (A2 : mu' <= 1 + de). { apply Rmult_le_reg_l with q; lra. }
      assert (A3 : 0 <= q * (de * (1 + de - mu'))) by (repeat apply Rmult_le_pos; lra).
      replace ((mu' - de) * (q * (1 + de))) with (q * mu' - q * (de * (1 + de - mu'))) in A1 by ring. lra. }
  pose proof (side_near _ _ w _ Hw1 Err) as K. change (rdot (rdirection (vreal s)) w - 6 * uround p <= rdot (vreal n) w) in K. split; [lra|]. split; lra.
Qed.
Print Assumptions C77_vertex_normal.

(** all vertices of the mesh at once, each with its own side *)
Theorem C77_all_normals :
  forall (p e : Z) (Hp : Prec_gt_0 p) (He : Prec_lt_emax p e) f g h pi, let S := IEEE p e Hp He f g h pi in
  forall (L : Linal S) (a : addr) (ts : list (triangle S)) (m : mesh S), well_formed L a ts m -> 1024 * uround p <= 1 ->
  forall (W : nat -> vec R 3) (mu sg : R), 0 < sg ->
    (forall v x, nth_error (m_vertices m) v = Some x -> rnorm (W v) = 1 /\ @faces_side p e Hp He f g h pi m v (W v) mu sg /\
       let cnt := INR (length (v_hes x)) in 32 * cnt * uround p <= 1 /\ 13 * uround p <= mu - facet_bound2 p sg - 6 / 5 * cnt * uround p) ->
  exists ns : list (vec (binary_float p e) 3), calc_vertex_normals L (only a m) m = Ok ns /\ length ns = length (m_vertices m) /\
    forall v n, nth_error ns v = Some n -> finite_pt n /\ Rabs (rnorm (vreal n) - 1) <= 6 * uround p /\ 0 < rdot (vreal n) (W v) /\
      exists x, nth_error (m_vertices m) v = Some x /\ let cnt := INR (length (v_hes x)) in mu - facet_bound2 p sg - (12 / 5 * cnt + 12) * uround p <= rdot (vreal n) (W v).
Proof.
  intros p e Hp He f g h pi S L a ts m Hw Hu W mu sg Hsg HV. unfold calc_vertex_normals.
  destruct (mapM_total (vertex_normal L (only a m)) (m_vertices m)) as (ns & En).
  { intros x Hx. destruct (In_nth_error _ _ Hx) as (v & Hv). destruct (HV v x Hv) as (A1 & A2 & A3 & A4).
    destruct (C77_vertex_normal p e Hp He f g h pi L a ts m Hw Hu v x (W v) mu sg Hv A1 Hsg A2 A3 A4) as (n & N1 & _). exists n. exact N1. }
  exists ns. split; [exact En|]. split; [exact (mapM_length _ _ _ En)|]. intros v n Hn.
  assert (K : exists x, nth_error (m_vertices m) v = Some x /\ vertex_normal L (only a m) x = Ok n).
  { clear - En Hn. revert ns v En Hn. generalize (m_vertices m) as l. induction l as [|x l IH]; intros ns v En Hn; cbn [mapM] in En.
    - apply Ok_inj in En. subst ns. destruct v; discriminate Hn.
    - destruct (vertex_normal L (only a m) x) as [y| | | |] eqn:E1; try discriminate En. cbn [bind] in En. destruct (mapM (vertex_normal L (only a m)) l) as [r| | | |] eqn:E2; try discriminate En. cbn [bind] in En.
      apply Ok_inj in En. subst ns. destruct v as [|v]; [exists x; split; [reflexivity|]; rewrite E1; f_equal; injection Hn as Hn; exact Hn|]. exact (IH r v eq_refl Hn). }
  destruct K as (x & Hx & Ex). destruct (HV v x Hx) as (A1 & A2 & A3 & A4).
  destruct (C77_vertex_normal p e Hp He f g h pi L a ts m Hw Hu v x (W v) mu sg Hx A1 Hsg A2 A3 A4) as (n' & N1 & N2 & N3 & _ & N5 & N4).
  pose proof (Ok_inj _ _ (eq_trans (eq_sym N1) Ex) : n' = n) as Q. subst n'. split; [exact N2|]. split; [exact N3|]. split; [exact N4|]. exists x. split; [exact Hx|]. cbv zeta. lra.
Qed.
Print Assumptions C77_all_normals.

(** ** C77: "facets in the same plane count once" (C31), refuted in doubles with exact
    comparison.  Two triangles at the origin lie in the plane x + y + z = 0, a third in
    z = 0.  The rounded normals of the first two differ by an ulp, so that plane is
    counted twice: the first component of the vertex normal is above 3/8, that of the
    direction of the sum of the distinct unit normals is below. *)
Section Fan.
  Context (f g h : b64 -> b64) (pi : b64).
  Let q (a b c : Z) : vec b64 3 := mk3 (b64_ofZ a) (b64_ofZ b) (b64_ofZ c).
  Definition plane_fan : list (triangle (B64 f g h pi)) :=
    [(q 0 0 0, q 1 (-1) 0, q 0 1 (-1)); (q 0 0 0, q 0 1 (-1), q (-3) 0 3); (q 0 0 0, q 1 0 0, q 0 1 0)]%Z.
End Fan.
Definition b64_3_8 : b64 := @B754_finite 53 1024 false 6755399441055744 (-54) eq_refl.

Theorem C77_coplanar_refuted :
  forall f g h pi, let S := B64 f g h pi in let L := raw_linal S (b64_ofZ 0) in
  exists m x (n : vec b64 3), add_triangles L 256%nat true 7%nat empty_mesh (plane_fan f g h pi) = Ok m /\
    nth_error (m_vertices m) 0 = Some x /\ length (v_hes x) = 3%nat /\ vertex_normal L (only 7%nat m) x = Ok n /\ is_finite (vnth (B754_zero false) 0 n) = true /\
    forall ds : list (vec R 3), NoDup ds ->
      (forall d, In d ds <-> exists t : triangle S, In t (plane_fan f g h pi) /\
         unit_normal d (vreal (corner t 0 : vec b64 3)) (vreal (corner t 1 : vec b64 3)) (vreal (corner t 2 : vec b64 3))) ->
      vnth 0 0 (rdirection (rsum ds)) < 3 / 8 < fval 0 n.
Proof.
  intros f g h pi S L.
  assert (E : match add_triangles L 256%nat true 7%nat empty_mesh (plane_fan f g h pi) with
      | Ok m => match nth_error (m_vertices m) 0 with
        | Some x => match vertex_normal L (only 7%nat m) x with
          | Ok n => (length (v_hes x) =? 3)%nat && is_finite (vnth (B754_zero false) 0 (n : vec b64 3)) && Bltb b64_3_8 (vnth (B754_zero false) 0 (n : vec b64 3))
          | _ => false end | _ => false end | _ => false end = true) by (vm_compute; reflexivity).
  destruct (add_triangles _ _ _ _ _ _) as [m| | | |]; try discriminate E.
  destruct (nth_error (m_vertices m) 0) as [x|] eqn:E1; try discriminate E.
  destruct (vertex_normal L (only 7%nat m) x) as [n| | | |] eqn:E2; try discriminate E.
  apply andb_true_iff in E as (E & Hlt). apply andb_true_iff in E as (Hl & Fn). apply Nat.eqb_eq in Hl.
  exists m, x, n. split; [reflexivity|]. split; [exact E1|]. split; [exact Hl|]. split; [exact E2|]. split; [exact Fn|].
  intros ds Hnd Hds. split.
  2:{ rewrite Bltb_correct in Hlt by (exact Fn || reflexivity). apply Rlt_bool_true_inv in Hlt || (destruct (Rlt_bool_spec (B2R b64_3_8) (B2R (vnth (B754_zero false) 0 (n : vec b64 3)))) as [K|K]; [|discriminate Hlt]).
      unfold fval. replace (3 / 8) with (B2R b64_3_8); [assumption|]. unfold b64_3_8, B2R, F2R. cbn. lra. }
  clear E1 E2 Hl Fn Hlt n x m.
  set (N1 := rscale (/ sqrt 3) (mk3 1 1 1) : vec R 3). set (N3 := mk3 0 0 1 : vec R 3).
  assert (s3 : sqrt 3 * sqrt 3 = 3) by (apply sqrt_sqrt; lra). assert (s30 : 0 < sqrt 3) by (apply sqrt_lt_R0; lra).
  assert (B : forall z, (Z.abs z <= 3)%Z -> B2R (b64_ofZ z) = IZR z) by (intros z Hz; apply b64_small; lia).
  assert (V : forall a b c, (Z.abs a <= 3)%Z -> (Z.abs b <= 3)%Z -> (Z.abs c <= 3)%Z -> @vreal 53 1024 3 (mk3 (b64_ofZ a) (b64_ofZ b) (b64_ofZ c)) = mk3 (IZR a) (IZR b) (IZR c)).
  { intros a b c Ha Hb Hc. change (@vreal 53 1024 3 (mk3 (b64_ofZ a) (b64_ofZ b) (b64_ofZ c))) with (mk3 (B2R (b64_ofZ a)) (B2R (b64_ofZ b)) (B2R (b64_ofZ c))). now rewrite !B by assumption. }
  set (i := / sqrt 3) in *. assert (i0 : 0 < i) by (apply Rinv_0_lt_compat, s30). assert (ii : i * i = / 3) by (unfold i; rewrite <- Rinv_mult, s3; reflexivity).
  assert (R1 : rnorm N1 = 1). { unfold rnorm. replace (rdot N1 N1) with 1; [apply sqrt_1|]. unfold N1, rdot, rscale, mk3. cbn. replace (i * 1 * (i * 1) + (i * 1 * (i * 1) + (i * 1 * (i * 1) + 0))) with (3 * (i * i)) by ring. rewrite ii. lra. }
  assert (R3 : rnorm N3 = 1). { unfold rnorm. replace (rdot N3 N3) with 1; [apply sqrt_1|]. unfold N3, rdot, mk3. cbn. ring. }
  assert (D : forall d, In d ds <-> d = N1 \/ d = N3).
  { intros d. rewrite Hds.
    assert (U1 : unit_normal N1 (mk3 0 0 0) (mk3 1 (-1) 0) (mk3 0 1 (-1))) by (split; [exact R1|]; unfold N1, rdot, rcross, rsub, rscale, mk3; cbn; repeat split; lra).
    assert (U2 : unit_normal N1 (mk3 0 0 0) (mk3 0 1 (-1)) (mk3 (-3) 0 3)) by (split; [exact R1|]; unfold N1, rdot, rcross, rsub, rscale, mk3; cbn; repeat split; lra).
    assert (U3 : unit_normal N3 (mk3 0 0 0) (mk3 1 0 0) (mk3 0 1 0)) by (split; [exact R3|]; unfold N3, rdot, rcross, rsub, mk3; cbn; repeat split; lra).
    split.
    - intros (t & Ht & Hn). cbn [In plane_fan] in Ht. destruct Ht as [Ht|[Ht|[Ht|[]]]]; subst t; cbn [corner] in Hn; rewrite !V in Hn by lia.
      + left. exact (unit_normal_unique _ _ _ _ _ Hn U1).
      + left. exact (unit_normal_unique _ _ _ _ _ Hn U2).
      + right. exact (unit_normal_unique _ _ _ _ _ Hn U3).
    - intros [-> | ->].
      + eexists. split; [left; reflexivity|]. cbn [corner]. rewrite !V by lia. exact U1.
      + eexists. split; [right; right; left; reflexivity|]. cbn [corner]. rewrite !V by lia. exact U3. }
  assert (NE : N1 <> N3) by (intros Q; apply (f_equal (vnth 0 0)) in Q; unfold N1, N3, rscale, mk3 in Q; cbn in Q; lra).
  assert (P : Permutation ds [N1; N3]).
  { apply NoDup_Permutation; [exact Hnd|constructor; [intros [Q|[]]; apply NE; symmetry; exact Q|constructor; [intros []|constructor]]|]. intros d. rewrite D. split; [intros [Q|Q]; subst d; [left|right; left]; reflexivity|intros [Q|[Q|[]]]; auto]. }
  rewrite (rsum_perm _ _ P). change (rsum [N1; N3]) with (radd N1 (radd N3 rzero)). rewrite radd_zero_r.
  set (v := radd N1 N3). assert (Ev : v = mk3 i i (i + 1)) by (unfold v, N1, N3, radd, rscale, mk3; cbn; repeat (apply f_equal2; [ring|]); reflexivity).
  assert (V2 : rnorm v * rnorm v = 2 + 2 * i). { rewrite rnorm_sq, Ev. unfold rdot, mk3. cbn. replace (i * i + (i * i + ((i + 1) * (i + 1) + 0))) with (3 * (i * i) + 2 * i + 1) by ring. rewrite ii. lra. }
  pose proof (rnorm_nonneg v) as V0. assert (V1 : 0 < rnorm v) by (destruct V0 as [K|K]; [exact K|rewrite <- K in V2; lra]).
  assert (i12 : 1 / 2 <= i). { apply Rmult_le_reg_r with (sqrt 3); [exact s30|]. unfold i. rewrite Rinv_l by lra. assert (sqrt 3 <= 2) by (rewrite <- (sqrt_square 2) by lra; apply sqrt_le_1_alt; lra). lra. }
  assert (C : vnth 0 0 (rdirection v) = / rnorm v * i) by (unfold rdirection; rewrite Ev at 2; reflexivity). rewrite C.
  apply Rmult_lt_reg_l with (rnorm v); [exact V1|]. replace (rnorm v * (/ rnorm v * i)) with i by (field; lra).
  assert (K : Rabs (8 / 3 * i) < Rabs (rnorm v)).
  { apply Rsqr_lt_abs_0. unfold Rsqr. rewrite V2. replace (8 / 3 * i * (8 / 3 * i)) with (64 / 9 * (i * i)) by field. rewrite ii. lra. }
  rewrite !Rabs_pos_eq in K by lra. lra.
Qed.
Print Assumptions C77_coplanar_refuted.

(** with exact comparison the stored points have the values of the given corners *)
Lemma facet_points_corners {p e} {Hp : Prec_gt_0 p} {He : Prec_lt_emax p e} f g h pi : let S := IEEE p e Hp He f g h pi in
  forall z a ts (m : mesh S), well_formed (raw_linal S z) a ts m -> (forall t c, In t ts -> (c < 3)%nat -> finite_pt (corner t c : vec (binary_float p e) 3)) ->
  forall k t, nth_error ts k = Some t -> exists p0 p1 p2 : vec (binary_float p e) 3, @facet_points S m k p0 p1 p2 /\ finite_pt p0 /\ finite_pt p1 /\ finite_pt p2 /\
    vreal p0 = vreal (corner t 0 : vec (binary_float p e) 3) /\ vreal p1 = vreal (corner t 1 : vec (binary_float p e) 3) /\ vreal p2 = vreal (corner t 2 : vec (binary_float p e) 3).
Proof.
  intros S z a ts m Hw HF k t Ht.
  assert (G : forall (q r : vec (binary_float p e) 3), In q (m_points m) -> finite_pt r -> @stands_for S (raw_linal S z) q r -> finite_pt q /\ vreal q = vreal r).
  { intros q r Iq Fr St. destruct (wf_points_given _ _ _ _ Hw q Iq) as (t' & c' & I' & C' & Eq). assert (Fq : finite_pt q) by (rewrite Eq; apply HF; assumption). split; [exact Fq|].
    destruct St as [->|Q]; [reflexivity|]. change (@vec_eqb S 3 q r = true) in Q. destruct q as (q0 & q1 & q2 & []), r as (r0 & r1 & r2 & []).
    change (Beqb q0 r0 && (Beqb q1 r1 && (Beqb q2 r2 && true)) = true) in Q. rewrite !andb_true_iff in Q. destruct Q as (Q0 & Q1 & Q2 & _).
    pose proof (Fq 0%nat ltac:(lia)) as X0. pose proof (Fq 1%nat ltac:(lia)) as X1. pose proof (Fq 2%nat ltac:(lia)) as X2. pose proof (Fr 0%nat ltac:(lia)) as Y0. pose proof (Fr 1%nat ltac:(lia)) as Y1. pose proof (Fr 2%nat ltac:(lia)) as Y2.
    cbn in X0, X1, X2, Y0, Y1, Y2. rewrite Beqb_correct in Q0, Q1, Q2 by assumption.
    assert (K : forall x y, Req_bool x y = true -> x = y) by (intros x y H; destruct (Req_bool_spec x y); [assumption|discriminate H]). apply K in Q0, Q1, Q2.
    change (mk3 (B2R q0) (B2R q1) (B2R q2) = mk3 (B2R r0) (B2R r1) (B2R r2)). now rewrite Q0, Q1, Q2. }
  pose proof (nth_error_In _ _ Ht) as It.
  destruct (wf_halfedge _ _ _ _ Hw _ t 0%nat Ht ltac:(lia)) as (h0 & p0 & A1 & _ & _ & _ & _ & _ & A7 & A8). rewrite Nat.add_0_r in A1.
  destruct (wf_halfedge _ _ _ _ Hw _ t 1%nat Ht ltac:(lia)) as (h1 & p1 & B1 & _ & _ & _ & _ & _ & B7 & B8).
  destruct (wf_halfedge _ _ _ _ Hw _ t 2%nat Ht ltac:(lia)) as (h2 & p2 & C1 & _ & _ & _ & _ & _ & C7 & C8).
  destruct (G p0 _ (nth_error_In _ _ A7) (HF t 0%nat It ltac:(lia)) A8) as (F0 & E0). destruct (G p1 _ (nth_error_In _ _ B7) (HF t 1%nat It ltac:(lia)) B8) as (F1 & E1). destruct (G p2 _ (nth_error_In _ _ C7) (HF t 2%nat It ltac:(lia)) C8) as (F2 & E2).
  exists p0, p1, p2. split; [exists h0, h1, h2; repeat (split; [assumption|]); assumption|]. repeat (split; [assumption|]). assumption.
Qed.

(** non-vacuity: the mesh of one triangle (0,0,0), (1,0,0), (0,1,0) in doubles, whose
    vertices all face (0,0,1) *)
Example C77_example :
  forall f g h pi, let S := B64 f g h pi in let L := raw_linal S (b64_ofZ 0) in
  let q a b c : vec b64 3 := mk3 (b64_ofZ a) (b64_ofZ b) (b64_ofZ c) in let t : triangle S := (q 0 0 0, q 1 0 0, q 0 1 0)%Z in
  exists m, add_triangles L 256%nat true 7%nat empty_mesh [t] = Ok m /\ well_formed L 7%nat [t] m /\ 1024 * uround 53 <= 1 /\
    forall v x, nth_error (m_vertices m) v = Some x -> rnorm (mk3 0 0 1 : vec R 3) = 1 /\ @faces_side 53 1024 prec53 prec_emax64 f g h pi m v (mk3 0 0 1) 1 (1 / 2) /\
      let cnt := INR (length (v_hes x)) in 32 * cnt * uround 53 <= 1 /\ 13 * uround 53 <= 1 - facet_bound2 53 (1 / 2) - 6 / 5 * cnt * uround 53.
Proof.
  intros f g h pi S L q t. destruct (add_wf L 256%nat true 7%nat [t] ltac:(cbn; lia)) as (m & E & Hw). exists m. split; [exact E|]. split; [exact Hw|].
  assert (U : uround 53 = / 9007199254740992) by (unfold uround; reflexivity). split; [rewrite U; lra|].
  intros v x Hv.
  assert (N1 : rnorm (mk3 0 0 1 : vec R 3) = 1) by (unfold rnorm; replace (rdot _ _) with 1 by (unfold rdot, mk3; cbn; ring); apply sqrt_1). split; [exact N1|].
  destruct (b64_small 0 eq_refl) as (F0 & E0), (b64_small 1 eq_refl) as (F1 & E1).
  assert (HF : forall t' c, In t' [t] -> (c < 3)%nat -> finite_pt (corner t' c : vec b64 3)).
  { intros t' c [<-|[]] Hc. destruct c as [|[|[|c]]]; try lia; intros [|[|[|i]]] Hi; try lia; assumption. }
  assert (V : forall a b c, @vreal 53 1024 3 (q a b c) = mk3 (B2R (b64_ofZ a)) (B2R (b64_ofZ b)) (B2R (b64_ofZ c))) by reflexivity.
  split.
  - intros k c he Hc Hh Hev. pose proof (nth_error_lt _ _ _ Hh) as Hlt. pose proof (wf_halfedge_count _ _ _ _ Hw : length (m_halfedges m) = 3%nat) as HC. change (3 * k + c < length (m_halfedges m))%nat in Hlt. rewrite HC in Hlt. assert (k = 0%nat) by lia. subst k.
    destruct (facet_points_corners f g h pi (b64_ofZ 0) 7%nat [t] m Hw HF 0 t eq_refl) as (p0 & p1 & p2 & HP & G0 & G1 & G2 & X0 & X1 & X2).
    exists p0, p1, p2, 1%Z, (mk3 0 0 1). split; [exact HP|]. split; [exact G0|]. split; [exact G1|]. split; [exact G2|].
    change (vreal p0 = vreal (q 0%Z 0%Z 0%Z)) in X0. change (vreal p1 = vreal (q 1%Z 0%Z 0%Z)) in X1. change (vreal p2 = vreal (q 0%Z 1%Z 0%Z)) in X2.
    rewrite X0, X1, X2, !V, !E0, !E1.
    assert (d1 : rdist (mk3 1 0 0) (mk3 0 0 0) = 1). { unfold rdist, rnorm. replace (rdot _ _) with 1 by (unfold rdot, rsub, mk3; cbn; ring). apply sqrt_1. }
    assert (d2 : rdist (mk3 0 1 0) (mk3 1 0 0) = sqrt 2). { unfold rdist, rnorm. f_equal. unfold rdot, rsub, mk3. cbn. ring. }
    assert (s2 : 1 <= sqrt 2 <= 2). { split; [rewrite <- sqrt_1; apply sqrt_le_1_alt; lra|]. apply Rle_trans with (sqrt (2 * 2)); [apply sqrt_le_1_alt; lra|rewrite sqrt_square; lra]. }
    assert (sn : corner_sine (mk3 0 0 0) (mk3 1 0 0) (mk3 0 1 0) = / sqrt 2).
    { unfold corner_sine, sine. change (rnorm (rsub (mk3 1 0 0) (mk3 0 0 0))) with (rdist (mk3 1 0 0) (mk3 0 0 0)). change (rnorm (rsub (mk3 0 1 0) (mk3 1 0 0))) with (rdist (mk3 0 1 0) (mk3 1 0 0)). rewrite d1, d2.
      replace (rnorm (rcross _ _)) with 1; [field; lra|]. unfold rnorm. replace (rdot _ _) with 1 by (unfold rdot, rcross, rsub, mk3; cbn; ring). symmetry. apply sqrt_1. }
    assert (S2 : 1 / 2 <= / sqrt 2). { apply Rmult_le_reg_r with (sqrt 2); [lra|]. rewrite Rinv_l by lra. lra. }
    rewrite sn. split; [|split; [exact S2|split]].
    + split; [lia|]. split; [lia|]. rewrite d1, d2, sn, U. change (bpow radix2 (- (1))) with (/ 2). change (bpow radix2 1) with 2. split; [lra|]. split; lra.
    + split; [exact N1|]. unfold rdot, rcross, rsub, mk3. cbn. repeat split; lra.
    + unfold rdot, mk3. cbn. lra.
  - intros cnt. assert (C : cnt <= 3).
    { unfold cnt. replace 3 with (INR 3) by (cbn; ring). apply le_INR. destruct (wf_vertex _ _ _ _ Hw _ _ Hv) as (_ & _ & _ & V4 & V5).
      assert (ND : NoDup (v_hes x)).
      { clear - V4. induction V4 as [|y l H IH HA]; constructor; [|exact IH]. intros Hy. rewrite Forall_forall in HA. specialize (HA y Hy). lia. }
      change 3%nat with (length (seq 0 3)). apply NoDup_incl_length; [exact ND|]. intros i Hi. apply V5 in Hi as (hh & Hi & _). apply nth_error_lt in Hi. pose proof (wf_halfedge_count _ _ _ _ Hw : length (m_halfedges m) = 3%nat) as HC. apply in_seq. rewrite HC in Hi. cbn. lia. }
    assert (c0 : 0 <= cnt) by apply pos_INR. unfold facet_bound2. rewrite U. split; lra.
Qed.
