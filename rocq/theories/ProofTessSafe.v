(** * Memory safety of the builders *)

From Coq Require Import List Arith Bool Lia.
From Verif Require Import Scalar Linal Result ModelShapes ModelTransform ModelMesh SpecMesh ModelTess SpecTess
  ProofMesh ProofMeshMisc ProofMeshSafe ProofTessComb ProofTessMesh.
Import ListNotations.

Local Arguments Nat.mul _ _ : simpl never.
Local Arguments Nat.modulo _ _ : simpl never.
Local Arguments Nat.ltb _ _ : simpl never.
Local Arguments Nat.eqb _ _ : simpl never.
Local Arguments vec _ _ : simpl never.

Section Safe.
  Context {S : Scalar} (L : Linal S) (W : nat) (meq : hmat S -> hmat S -> bool) (dbg : bool) (self : addr) (SZ : nat).

  Lemma roa_bind {A B} (r : res A) (k : A -> res B) : returns_or_asserts dbg r ->
    (forall x, r = Ok x -> returns_or_asserts dbg (k x)) -> returns_or_asserts dbg (bind r k).
  Proof. intros [(x & ->)|(D & ->)] H; [apply H; reflexivity|right; auto]. Qed.
  Lemma roa_ok {A} (x : A) : returns_or_asserts dbg (Ok x).
  Proof. left; eauto. Qed.
  Lemma roa_assert b : returns_or_asserts dbg (geo_assert dbg b).
  Proof. unfold returns_or_asserts, geo_assert. destruct b; [left; exists tt; destruct dbg; reflexivity|]. destruct dbg; [right; auto|left; exists tt; reflexivity]. Qed.

  Lemma build_mesh_safe pts T trafo : 0 < length pts -> 3 * length T < W ->
    (forall x, In x (flat3 T) -> x < length pts) ->
    returns_or_asserts dbg (build_mesh L W meq dbg self SZ pts (flat3 T) trafo).
  Proof.
    intros H0 HW Hin. rewrite (build_mesh_eq L W meq dbg self SZ pts trafo (mk3 s0 s0 s0) T H0 Hin).
    destruct (safe_built L W dbg self SZ (map (pick meq pts trafo (mk3 s0 s0 s0)) T)) as [(m & E & _)|H].
    - rewrite map_length. exact HW.
    - left. eauto.
    - right. exact H.
  Qed.

  (** the first triangle with an index out of range *)
  Lemma build_mesh_ub pts T1 t T2 trafo : 0 < length pts -> 3 * length T1 < W ->
    (forall x, In x (flat3 T1) -> x < length pts) -> (exists x, In x (flat3 [t]) /\ length pts <= x) ->
    build_mesh L W meq dbg self SZ pts (flat3 (T1 ++ t :: T2)) trafo = UB.
  Proof.
    intros H0 HW Hin (x & Hx & Hge). unfold build_mesh. rewrite flat3_length.
    rewrite geo_assert_true by (apply Nat.ltb_lt; exact H0). cbn [bind].
    rewrite geo_assert_true by (apply Nat.eqb_eq; rewrite Nat.mul_comm; apply Nat.mod_mul; lia). cbn [bind].
    assert (E : forall T m, (forall x, In x (flat3 T) -> x < length pts) ->
      build_loop L W meq dbg self pts trafo (flat3 (T ++ t :: T2)) m =
      (let* m1 := add_triangles L W dbg self m (map (pick meq pts trafo (mk3 s0 s0 s0)) T) in
       build_loop L W meq dbg self pts trafo (flat3 (t :: T2)) m1)).
    { clear -S. induction T as [|[[i0 i1] i2] T IH]; intros m Hin; [reflexivity|].
      change (flat3 (((i0, i1, i2) :: T) ++ t :: T2)) with (i0 :: i1 :: i2 :: flat3 (T ++ t :: T2)).
      change (flat3 ((i0, i1, i2) :: T)) with (i0 :: i1 :: i2 :: flat3 T) in Hin.
      assert (N : forall i, i < length pts -> at_ pts i = Ok (nth i pts (mk3 s0 s0 s0))).
      { intros i Hi. apply at_Ok. apply nth_error_nth'. exact Hi. }
      cbn [build_loop]. rewrite !N by (apply Hin; cbn; auto). cbn [bind map add_triangles foldM].
      unfold pick at 1. destruct (add_triangle _ _ _ _ _ _) as [m1| | | |]; try reflexivity. cbn [bind].
      rewrite IH by (intros x Hx; apply Hin; cbn; auto). reflexivity. }
    rewrite E by exact Hin.
    destruct (add_triangles_wf L W dbg self [] empty_mesh (map (pick meq pts trafo (mk3 s0 s0 s0)) T1) (wf_empty L self)) as (m & Em & _).
    { rewrite map_length. exact HW. }
    rewrite Em. cbn [bind]. destruct t as [[i0 i1] i2].
    change (flat3 ((i0, i1, i2) :: T2)) with (i0 :: i1 :: i2 :: flat3 T2). cbn [build_loop].
    assert (N : forall i, (exists q, at_ pts i = Ok q) \/ at_ pts i = UB).
    { intros i. unfold at_. destruct (nth_error pts i); eauto. }
    assert (U : forall i, length pts <= i -> at_ pts i = UB).
    { intros i Hi. unfold at_. apply nth_error_None in Hi. rewrite Hi. reflexivity. }
    cbn in Hx. destruct (N i2) as [(q2 & E2)|E2]; rewrite E2; [|reflexivity]. cbn [bind].
    destruct (N i1) as [(q1 & E1)|E1]; rewrite E1; [|reflexivity]. cbn [bind].
    destruct (N i0) as [(q0 & E0)|E0]; rewrite E0; [|reflexivity]. cbn [bind].
    exfalso. destruct Hx as [<-|[<-|[<-|[]]]]; rewrite U in * by exact Hge; discriminate.
  Qed.

  (** ** Sphere *)
  Lemma sphere_points_length p a (s : sphere S) : length (sphere_points L p a s) = (p - 1) * a + 2.
  Proof.
    unfold sphere_points. destruct (negb _); rewrite ?map_length, app_length, (flat_map_length_const _ a);
      try (intros; rewrite map_length, seq_length; reflexivity); rewrite seq_length; cbn [length]; lia.
  Qed.

  Lemma sphere_safe p a o s : 2 <= p -> 1 <= a -> 6 * a * (p - 1) < W ->
    returns_or_asserts dbg (mb_sphere L W meq dbg self SZ p a o s).
  Proof.
    intros Hp Ha HW.
    assert (B1 : (p - 1) * a + 2 < W) by nia. assert (B2 : p < W) by nia. assert (B3 : a < W) by nia.
    unfold mb_sphere, sb_build, sb_set_sphere, sb_set_azimuth, sb_set_polar, sb_init. cbn [sb_polar sb_azimuth sb_sphere sb_origin sb_radius].
    rewrite !(Nat.mod_small _ _ B2), !(Nat.mod_small _ _ B3).
    rewrite sphere_points_length, Nat.mod_small by exact B1. rewrite (sphere_indices_eq1 p a Hp W Ha B1 B2 B3).
    apply roa_bind; [|intros [b m] _; apply roa_ok]. apply roa_bind; [|intros m _; apply roa_ok].
    apply build_mesh_safe.
    - rewrite sphere_points_length. rewrite Nat.add_comm. apply Nat.lt_0_succ.
    - rewrite !map_length, (ctags_length1 p a Hp Ha). nia.
    - intros x Hx. rewrite sphere_points_length. apply flat3_In in Hx as (i & j & k & Hin & Hx).
      apply in_map_iff in Hin as ([[u v] w] & E & Hin). injection E as <- <- <-.
      apply in_map_iff in Hin as (t & E & Ht). apply (ctags_ok1 p a Hp t Ha) in Ht.
      pose proof (ctri_ok1 p a Hp t Ha Ht) as K. rewrite E in K.
      destruct Hx as [->|[->| ->]]; apply (senc_lt1 p a Hp); try exact Ha; apply K.
  Qed.

  Lemma sphere_indices_flat p a n : exists T,
    sphere_indices W p a n =
    flat3 ((toIdx W a 0 (usub W a 1), usub W n 2, toIdx W a 0 0) ::
           (toIdx W a (usub W p 2) 0, usub W n 1, toIdx W a (usub W p 2) (usub W a 1)) :: T).
  Proof.
    eexists (flat_map (fun j => [(usub W n 2, toIdx W a 0 j, toIdx W a 0 (usub W j 1));
                                 (toIdx W a (usub W p 2) j, usub W n 1, toIdx W a (usub W p 2) (usub W j 1))]) (seq 1 (a - 1)) ++
             flat_map (fun i => flat_map (fun j =>
                 [(toIdx W a (usub W i 1) j, toIdx W a i (usub W j 1), toIdx W a (usub W i 1) (usub W j 1));
                  (toIdx W a i (usub W j 1), toIdx W a (usub W i 1) j, toIdx W a i j)]) (seq 1 (a - 1)) ++
                 [(toIdx W a i (usub W a 1), toIdx W a (usub W i 1) (usub W a 1), toIdx W a (usub W i 1) 0);
                  (toIdx W a i 0, toIdx W a i (usub W a 1), toIdx W a (usub W i 1) 0)]) (seq 1 (usub W p 1 - 1))).
    change (flat3 (?x :: ?y :: ?T)) with (flat3 [x] ++ flat3 [y] ++ flat3 T).
    rewrite flat3_app, !flat3_flat_map. unfold sphere_indices.
    do 6 (apply (f_equal2 cons); [reflexivity|]). apply (f_equal2 (@app nat)); [reflexivity|].
    apply flat_map_ext. intros i. rewrite flat3_app, flat3_flat_map. reflexivity.
  Qed.

  Lemma sphere_ub p a o s : 8 <= W -> p < W -> a < W -> p < 2 \/ a = 0 ->
    (p - 1) * a + 2 < W -> mb_sphere L W meq dbg self SZ p a o s = UB.
  Proof.
    intros HW B2 B3 H B1.
    unfold mb_sphere, sb_build, sb_set_sphere, sb_set_azimuth, sb_set_polar, sb_init. cbn [sb_polar sb_azimuth sb_sphere sb_origin sb_radius].
    rewrite !(Nat.mod_small _ _ B2), !(Nat.mod_small _ _ B3).
    rewrite sphere_points_length, Nat.mod_small by exact B1.
    assert (En : (p - 1) * a = 0) by (destruct H as [H| ->]; [replace (p - 1) with 0 by lia; reflexivity|apply Nat.mul_0_r]).
    rewrite En. cbn [Nat.add]. pose proof (sphere_points_length p a s) as Hl. rewrite En in Hl. cbn [Nat.add] in Hl.
    destruct (sphere_indices_flat p a 2) as (T & ->).
    replace (usub W 2 2) with 0 by (unfold usub; replace (2 + (W - 2)) with (1 * W) by lia; rewrite Nat.mod_mul; lia).
    replace (toIdx W a 0 0) with 0 by (unfold toIdx; rewrite Nat.mul_0_l, Nat.mod_small; lia).
    destruct (Nat.le_gt_cases 3 a) as [Ha|Ha]; [|destruct (Nat.eq_dec a 0) as [->|Ha0]].
    - match goal with |- context [build_mesh _ _ _ _ _ _ ?pts (flat3 (?t :: ?T')) _] =>
        change (flat3 (t :: T')) with (flat3 ([] ++ t :: T')); rewrite (build_mesh_ub pts [] t T' hidentity) end; [reflexivity|lia|cbn; lia|intros x []|].
      exists (a - 1). split; [left|lia]. unfold toIdx, usub. replace (a + (W - 1)) with (a - 1 + 1 * W) by lia.
      rewrite Nat.mod_add, (Nat.mod_small (a - 1)) by lia. rewrite Nat.mod_small; lia.
    - match goal with |- context [build_mesh _ _ _ _ _ _ ?pts (flat3 (?t :: ?T')) _] =>
        change (flat3 (t :: T')) with (flat3 ([] ++ t :: T')); rewrite (build_mesh_ub pts [] t T' hidentity) end; [reflexivity|lia|cbn; lia|intros x []|].
      exists (W - 1). split; [left|lia]. unfold toIdx, usub. rewrite (Nat.mod_small (0 + (W - 1))) by lia. rewrite Nat.mod_small; lia.
    - assert (Hp : p < 2) by (destruct H; lia).
      match goal with |- context [build_mesh _ _ _ _ _ _ ?pts (flat3 (?t :: ?u :: ?T')) _] =>
        change (flat3 (t :: u :: T')) with (flat3 ([t] ++ u :: T')); rewrite (build_mesh_ub pts [t] u T' hidentity) end; [reflexivity|lia|cbn; lia| |].
      + assert (E : toIdx W a 0 (usub W a 1) = a - 1).
        { unfold toIdx, usub. replace (a + (W - 1)) with (a - 1 + 1 * W) by lia.
          rewrite Nat.mod_add, (Nat.mod_small (a - 1)) by lia. rewrite Nat.mod_small; lia. }
        rewrite E. intros x Hx. cbn in Hx. rewrite Hl. lia.
      + rewrite Hl.
        assert (E : toIdx W a (usub W p 2) (usub W a 1) = W - 1 - (1 - p) * a).
        { unfold toIdx, usub. replace (a + (W - 1)) with (a - 1 + 1 * W) by lia.
          rewrite Nat.mod_add, (Nat.mod_small (a - 1)) by lia. rewrite (Nat.mod_small (p + (W - 2))) by lia.
          assert (p = 0 \/ p = 1) as [-> | ->] by lia; assert (a = 1 \/ a = 2) as [-> | ->] by lia.
          - rewrite Nat.mod_small; lia.
          - replace ((0 + (W - 2)) * 2 + (2 - 1)) with (W - 3 + 1 * W) by lia. rewrite Nat.mod_add, Nat.mod_small; lia.
          - rewrite Nat.mod_small; lia.
          - replace ((1 + (W - 2)) * 2 + (2 - 1)) with (W - 1 + 1 * W) by lia. rewrite Nat.mod_add, Nat.mod_small; lia. }
        rewrite E. eexists. split; [right; right; left; reflexivity|]. 
        assert (p = 0 \/ p = 1) as [-> | ->] by lia; assert (a = 1 \/ a = 2) as [-> | ->] by lia; lia.
  Qed.

  (** ** Cone and cylinder *)
  Context (rot_align : hvec S -> hvec S -> hmat S).

  Lemma cone_safe a c : 6 * a + 2 < W -> returns_or_asserts dbg (mb_cone L W meq dbg self SZ rot_align a c).
  Proof.
    intros HW. unfold mb_cone, cone_build. rewrite Nat.mod_small by lia.
    apply roa_bind; [apply roa_assert|intros _ _]. apply roa_bind; [apply roa_assert|intros _ _].
    apply roa_bind; [apply roa_assert|intros _ _].
    destruct (cone_triangles_eq W a c) as (pts & -> & Ep); [lia|]. cbn [bind].
    apply roa_bind; [|intros m _; apply roa_ok].
    assert (Hl : length pts = a + 2) by (rewrite Ep, app_length, circle_points_length; cbn [length]; lia).
    apply build_mesh_safe; [lia|rewrite !map_length, ktags_length; lia|].
    intros x Hx. rewrite Hl. apply flat3_In in Hx as (i & j & k & Hin & Hx).
    apply in_map_iff in Hin as ([[u v] w] & E & Hin). injection E as <- <- <-.
    apply in_map_iff in Hin as (t & E & Ht). apply ktags_ok in Ht.
    pose proof (ktri_ok a t Ht) as K. rewrite E in K.
    destruct Hx as [->|[->| ->]]; apply kenc_lt, K.
  Qed.

  Lemma cylinder_safe a c : 2 <= a -> 12 * a < W -> returns_or_asserts dbg (mb_cylinder L W meq dbg self SZ rot_align a c).
  Proof.
    intros Ha HW. unfold mb_cylinder, cylinder_build. rewrite Nat.mod_small by lia.
    apply roa_bind; [apply roa_assert|intros _ _].
    destruct (cylinder_triangles_eq W dbg a c) as (pts & -> & Ep); [lia|lia|]. cbn [bind].
    apply roa_bind; [|intros m _; apply roa_ok].
    assert (Hl : length pts = 2 * a + 2) by (rewrite Ep, app_length, !circle_points_length; lia).
    apply build_mesh_safe; [lia|rewrite !map_length, ytags_length; lia|].
    intros x Hx. rewrite Hl. apply flat3_In in Hx as (i & j & k & Hin & Hx).
    apply in_map_iff in Hin as ([[u v] w] & E & Hin). injection E as <- <- <-.
    apply in_map_iff in Hin as (t & E & Ht). apply ytags_ok in Ht.
    pose proof (ytri_ok a t Ht) as K. rewrite E in K.
    destruct Hx as [->|[->| ->]]; apply yenc_lt, K.
  Qed.

  Lemma cylinder_ub a c : 16 <= W -> a < 2 -> mb_cylinder L W meq dbg self SZ rot_align a c = UB.
  Proof.
    intros HW Ha. unfold mb_cylinder, cylinder_build. rewrite Nat.mod_small by lia. rewrite geo_assert_true by reflexivity. cbn [bind].
    unfold cylinder_triangles. rewrite circle_indices_eq by lia. cbn [bind].
    rewrite circle_points_length, (Nat.mod_small (a + 1)) by lia. rewrite circle_indices_eq by lia. cbn [bind].
    rewrite (Nat.mod_small (a + 2)), (Nat.mod_small (2 * a + 1)), (Nat.mod_small (a + 2 + 1)) by lia.
    set (trafo := set_translation _ _).
    assert (a = 0 \/ a = 1) as [-> | ->] by lia.
    - replace (usub W 0 1) with (W - 1) by (unfold usub; rewrite Nat.mod_small; lia).
      replace (usub W (2 * 0 + 1) (0 + 2)) with (W - 1) by (unfold usub; rewrite Nat.mod_small; lia).
      rewrite !geo_assert_true by apply Nat.eqb_refl. cbn [bind seq map flat3 flat_map app Nat.add Nat.sub mantle].
      match goal with |- context [build_mesh _ _ _ _ _ _ ?pts ?idx trafo] => set (P := pts) end.
      assert (HP : length P = 2) by (unfold P; rewrite app_length, !circle_points_length; reflexivity).
      pose proof (build_mesh_ub P [] (0, 3, 1) [(3, 2, 1)] trafo ltac:(lia) ltac:(cbn; lia) ltac:(intros x [])
                    ltac:(exists 3; split; [cbn; auto|lia])) as E.
      cbn [flat3 flat_map app] in E. rewrite E. reflexivity.
    - replace (usub W 1 1) with 0 by (unfold usub; replace (1 + (W - 1)) with (0 + 1 * W) by lia; rewrite Nat.mod_add, Nat.mod_small; lia).
      replace (usub W (2 * 1 + 1) (1 + 2)) with 0 by (unfold usub; replace (2 * 1 + 1 + (W - (1 + 2))) with (0 + 1 * W) by lia; rewrite Nat.mod_add, Nat.mod_small; lia).
      rewrite !geo_assert_true by apply Nat.eqb_refl. cbn [bind seq map flat3 flat_map app Nat.add Nat.sub mantle nxt].
      match goal with |- context [build_mesh _ _ _ _ _ _ ?pts ?idx trafo] => set (P := pts) end.
      assert (HP : length P = 4) by (unfold P; rewrite app_length, !circle_points_length; reflexivity).
      pose proof (build_mesh_ub P [(0, 1, 1); (2, 3, 3)] (1, 4, 1) [(4, 3, 1)] trafo ltac:(lia) ltac:(cbn; lia)
                    ltac:(intros x Hx; cbn in Hx; lia) ltac:(exists 4; split; [cbn; auto|lia])) as E.
      cbn [flat3 flat_map app] in E.
      match goal with |- context [build_mesh _ _ _ _ _ _ P ?i trafo] => change i with [0; 1; 1; 2; 3; 3; 1; 4; 1; 4; 3; 1] end.
      rewrite E. reflexivity.
  Qed.

  Lemma cuboid_safe c : 36 < W -> returns_or_asserts dbg (cuboid_mesh L W dbg self SZ c).
  Proof.
    intros HW. unfold cuboid_mesh.
    destruct (safe_built L W dbg self SZ (cuboid_triangles c)) as [(m & E & _)|(D & E)]; [cbn; lia| |].
    - destruct (add_triangles_wf L W dbg self [] empty_mesh (cuboid_triangles c) (wf_empty L self)) as (m0 & Em & _); [cbn; lia|].
      rewrite (built_unfold _ _ _ _ _ _ _ Em) in E. rewrite Em. cbn [bind]. rewrite E. cbn [bind].
      apply roa_bind; [apply roa_assert|intros _ _]. apply roa_bind; [apply roa_assert|intros _ _]. apply roa_ok.
    - destruct (add_triangles_wf L W dbg self [] empty_mesh (cuboid_triangles c) (wf_empty L self)) as (m0 & Em & _); [cbn; lia|].
      rewrite (built_unfold _ _ _ _ _ _ _ Em) in E. rewrite Em. cbn [bind]. rewrite E. right. auto.
  Qed.
End Safe.
