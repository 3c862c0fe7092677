(** * The cuboid mesh *)

From Coq Require Import List Arith Bool Lia Reals Lra.
From Verif Require Import Scalar Linal Result SpecReal VecR VecLemmas SpecKdTree ModelShapes ModelTransform SpecTransform
  ModelMesh SpecMesh ModelTess SpecTess ProofTessComb ProofTessConn ProofTessMesh ProofTess ProofMesh ProofMeshMisc.
Import ListNotations.

(** ** Combinatorics of the twelve triangles, checked by computation *)

(** corner [n] has coordinates given by the bits of [n]; the triangles are
    listed the other way round, as the index buffers do *)
Definition btris : list (nat * nat * nat) := map rev3
  [(0, 4, 6); (6, 2, 0); (7, 5, 1); (1, 3, 7);
   (0, 1, 5); (5, 4, 0); (7, 3, 2); (2, 6, 7);
   (0, 2, 3); (3, 1, 0); (7, 6, 4); (4, 5, 7)].
Definition bv_ok (v : nat) : Prop := v < 8.

Definition pair_eqb (e f : nat * nat) : bool := (fst e =? fst f) && (snd e =? snd f).
Lemma pair_eqb_eq e f : pair_eqb e f = true <-> e = f.
Proof.
  destruct e as [a b], f as [c d]. unfold pair_eqb. cbn. rewrite andb_true_iff, !Nat.eqb_eq. split; [intros [-> ->]; reflexivity|].
  intros E; injection E; auto.
Qed.
Fixpoint nodupb (l : list (nat * nat)) : bool :=
  match l with [] => true | e :: r => negb (existsb (pair_eqb e) r) && nodupb r end.
Lemma nodupb_NoDup l : nodupb l = true -> NoDup l.
Proof.
  induction l as [|e l IH]; cbn; [constructor|]. intros H. apply andb_true_iff in H as [H1 H2]. constructor; [|auto].
  intros K. apply negb_true_iff in H1. enough (existsb (pair_eqb e) l = true) by congruence.
  apply existsb_exists. exists e. split; [exact K|]. apply pair_eqb_eq. reflexivity.
Qed.

Lemma btri_closed : closed_oriented (flat_map edges3 btris).
Proof.
  split; [apply nodupb_NoDup; reflexivity|]. intros u v H.
  assert (K : forallb (fun e => negb (fst e =? snd e) && existsb (pair_eqb (snd e, fst e)) (flat_map edges3 btris)) (flat_map edges3 btris) = true)
    by reflexivity.
  rewrite forallb_forall in K. specialize (K _ H). cbn [fst snd] in K. apply andb_true_iff in K as [K1 K2].
  apply negb_true_iff, Nat.eqb_neq in K1. split; [exact K1|].
  apply existsb_exists in K2 as (e & He & E). apply pair_eqb_eq in E. subst e. exact He.
Qed.

Lemma btri_corner v : In v (flat3 btris) <-> bv_ok v.
Proof.
  split.
  - intros H. unfold bv_ok. apply Nat.ltb_lt.
    assert (K : forallb (fun x => x <? 8) (flat3 btris) = true) by reflexivity. rewrite forallb_forall in K. apply K, H.
  - intros H. assert (K : forallb (fun x => existsb (Nat.eqb x) (flat3 btris)) (seq 0 8) = true) by reflexivity.
    rewrite forallb_forall in K. unfold bv_ok in H. specialize (K v ltac:(apply in_seq; lia)).
    apply existsb_exists in K as (x & Hx & E). apply Nat.eqb_eq in E. subst x. exact Hx.
Qed.

(** what is reached from [u] in [n] steps *)
Fixpoint reach (next : nat -> list nat) (n u : nat) : list nat :=
  u :: match n with O => [] | S n' => flat_map (reach next n') (next u) end.
Lemma reach_chain (next : nat -> list nat) (E : nat -> nat -> Prop) : (forall u v, In v (next u) -> E u v) ->
  forall n u v, In v (reach next n u) -> chain E u v.
Proof.
  intros HE. induction n as [|n IH]; intros u v; cbn.
  - intros [<-|[]]. constructor.
  - intros [<-|H]; [constructor|]. apply in_flat_map in H as (w & Hw & Hv). apply chain_step with w; auto.
Qed.

Definition bnext (u : nat) : list nat := map snd (filter (fun e => fst e =? u) (flat_map edges3 btris)).
Lemma btri_connected u v : bv_ok u -> bv_ok v -> chain (edge_rel btris) u v.
Proof.
  intros Hu Hv. apply (reach_chain bnext _) with (n := 4).
  - intros x y H. apply in_map_iff in H as ([x' y'] & E & H). apply filter_In in H as [H E']. cbn in E, E'.
    apply Nat.eqb_eq in E'. subst. exact H.
  - assert (K : forallb (fun x => forallb (fun y => existsb (Nat.eqb y) (reach bnext 4 x)) (seq 0 8)) (seq 0 8) = true)
      by (vm_compute; reflexivity).
    rewrite forallb_forall in K. specialize (K u ltac:(apply in_seq; unfold bv_ok in *; lia)).
    rewrite forallb_forall in K. specialize (K v ltac:(apply in_seq; unfold bv_ok in *; lia)).
    apply existsb_exists in K as (x & Hx & E). apply Nat.eqb_eq in E. subst x. exact Hx.
Qed.

Definition bturn (u v : nat) : list nat :=
  flat_map (fun t => if existsb (pair_eqb (v, u)) (edges3 t)
                     then map snd (filter (fun e => fst e =? u) (edges3 t)) else []) btris.
Lemma btri_star u : bv_ok u -> one_star btris u.
Proof.
  intros Hu v w Hv Hw. apply (reach_chain (bturn u) _) with (n := 6).
  - intros x y H. apply in_flat_map in H as (t & Ht & H). exists t. split; [exact Ht|].
    destruct (existsb (pair_eqb (x, u)) (edges3 t)) eqn:E; [|contradiction].
    apply existsb_exists in E as (e & He & Ee). apply pair_eqb_eq in Ee. subst e. split; [exact He|].
    apply in_map_iff in H as ([u' y'] & E' & H). apply filter_In in H as [H E'']. cbn in E', E''.
    apply Nat.eqb_eq in E''. subst. exact H.
  - assert (K : forallb (fun x => forallb (fun e => forallb (fun f =>
        negb (fst e =? x) || negb (fst f =? x) || existsb (Nat.eqb (snd f)) (reach (bturn x) 6 (snd e)))
        (flat_map edges3 btris)) (flat_map edges3 btris)) (seq 0 8) = true) by (vm_compute; reflexivity).
    rewrite forallb_forall in K. specialize (K u ltac:(apply in_seq; unfold bv_ok in *; lia)).
    rewrite forallb_forall in K. specialize (K _ Hv). rewrite forallb_forall in K. specialize (K _ Hw).
    cbn [fst snd] in K. rewrite Nat.eqb_refl in K. cbn [negb orb] in K.
    apply existsb_exists in K as (x & Hx & E). apply Nat.eqb_eq in E. subst x. exact Hx.
Qed.

(** ** Positions *)
Local Open Scope R_scope.

Definition bit (i n : nat) : R := if Nat.testbit n i then 1 else 0.
Definition bpos (o x y z : vec R 3) (n : nat) : vec R 3 := cuboid_point o x y z (bit 0 n) (bit 1 n) (bit 2 n).

Lemma bit_01 i n : bit i n = 0 \/ bit i n = 1.
Proof. unfold bit. destruct (Nat.testbit n i); auto. Qed.

Lemma cuboid_point_inj o x y z a b c a' b' c' : rdot (rcross x y) z <> 0 ->
  cuboid_point o x y z a b c = cuboid_point o x y z a' b' c' -> a = a' /\ b = b' /\ c = c'.
Proof.
  intros Hd E.
  assert (K : forall w, rdot w (cuboid_point o x y z a b c) = rdot w (cuboid_point o x y z a' b' c')) by (intros w; rewrite E; reflexivity).
  clear E. unfold cuboid_point in K.
  pose proof (K (rcross y z)) as K1. pose proof (K (rcross z x)) as K2. pose proof (K (rcross x y)) as K3. clear K.
  destruct o as (o1 & o2 & o3 & []), x as (x1 & x2 & x3 & []), y as (y1 & y2 & y3 & []), z as (z1 & z2 & z3 & []).
  cbn in *.
  repeat split; (eapply Rmult_eq_reg_r; [|exact Hd]); lra.
Qed.

Lemma bit_inj u v : bv_ok u -> bv_ok v -> bit 0 u = bit 0 v -> bit 1 u = bit 1 v -> bit 2 u = bit 2 v -> u = v.
Proof.
  unfold bv_ok, bit. intros Hu Hv.
  do 8 (destruct u as [|u]; [do 8 (destruct v as [|v]; [cbn; intros; first [reflexivity|exfalso; lra]|]); lia|]). lia.
Qed.

Lemma bpos_inj o x y z u v : rdot (rcross x y) z <> 0 -> bv_ok u -> bv_ok v -> bpos o x y z u = bpos o x y z v -> u = v.
Proof. intros Hd Hu Hv E. apply cuboid_point_inj in E as (E1 & E2 & E3); [|exact Hd]. apply bit_inj; assumption. Qed.

Lemma bpos_corner o x y z q : cuboid_corner o x y z q <-> exists v, bv_ok v /\ q = bpos o x y z v.
Proof.
  split.
  - intros (a & b & c & Ha & Hb & Hc & ->). unfold bpos, bit, bv_ok.
    destruct Ha as [->| ->], Hb as [->| ->], Hc as [->| ->];
      [exists 0%nat|exists 4%nat|exists 2%nat|exists 6%nat|exists 1%nat|exists 5%nat|exists 3%nat|exists 7%nat];
      (split; [lia|reflexivity]).
  - intros (v & Hv & ->). exists (bit 0 v), (bit 1 v), (bit 2 v). repeat split; apply bit_01.
Qed.

Lemma cuboid_triangles_eq M (o x y z : vec R 3) :
  cuboid_triangles (@mkCuboid (RS M) o x y z) = solid_triangles (RS M) btris (bpos o x y z).
Proof.
  unfold cuboid_triangles, face_triangles, solid_triangles, btris. cbn [cu_x cu_y cu_z cu_origin].
  destruct o as (o1 & o2 & o3 & []), x as (x1 & x2 & x3 & []), y as (y1 & y2 & y3 & []), z as (z1 & z2 & z3 & []).
  cbn [map app rev3 map3]. unfold bpos, bit. cbn [Nat.testbit Nat.odd Nat.even negb Nat.div2].
  unfold cuboid_point. cbn. repeat first [apply (f_equal2 (@cons _))|apply (f_equal2 (@pair _ _))|reflexivity|match goal with |- @eq _ ?u ?v => change (@eq R u v) end; ring].
Qed.

(** the volume spanned at an inner point has the sign of the determinant *)
Lemma btri_volume o x y z a b c i j k : 0 < a < 1 -> 0 < b < 1 -> 0 < c < 1 -> In (i, j, k) btris ->
  exists w, 0 < w /\
    let P := bpos o x y z in
    rdot (rcross (rsub (P j) (P k)) (rsub (P i) (P k))) (rsub (P k) (cuboid_point o x y z a b c)) = w * rdot (rcross x y) z /\
    rdot (rcross (rsub (P j) (P i)) (rsub (P k) (P i))) (rsub (P i) (cuboid_point o x y z a b c)) = - w * rdot (rcross x y) z.
Proof.
  intros Ha Hb Hc H. cbv zeta.
  destruct o as (o1 & o2 & o3 & []), x as (x1 & x2 & x3 & []), y as (y1 & y2 & y3 & []), z as (z1 & z2 & z3 & []).
  unfold bpos, bit. cbn in H.
  repeat (destruct H as [E|H]; [injection E as <- <- <-; cbn [Nat.testbit Nat.odd Nat.even negb Nat.div2]; unfold cuboid_point; cbn;
    first [exists a; split; [lra|split; ring] | exists (1 - a); split; [lra|split; ring]
          |exists b; split; [lra|split; ring] | exists (1 - b); split; [lra|split; ring]
          |exists c; split; [lra|split; ring] | exists (1 - c); split; [lra|split; ring]]|]).
  contradiction.
Qed.

Section Cuboid.
  Context (M : R) (L : Linal (RS M)) (W : nat) (dbg : bool) (self : addr) (SZ : nat).
  Context (o x y z : vec R 3).
  Let det := rdot (rcross x y) z.

  Lemma cuboid_good : (36 < W)%nat -> det <> 0 -> veq_on L (cuboid_corner o x y z : vec (RS M) 3 -> Prop) ->
    exists m, cuboid_mesh L W dbg self SZ (@mkCuboid (RS M) o x y z) = Ok m /\
      good_mesh M W dbg self bv_ok 8 btris (bpos o x y z) m.
  Proof.
    intros HW Hd HG.
    destruct (good_solid M L W dbg self SZ _ HG bv_ok (fun v => v) (seq 0 8) 8 btris) with (pos := bpos o x y z) as (m & E & H).
    - apply map_id.
    - intros v Hv. apply in_seq in Hv. unfold bv_ok. lia.
    - intros u v _ _ E. exact E.
    - intros v Hv. exact Hv.
    - exact btri_corner.
    - exact btri_closed.
    - exact btri_connected.
    - exact btri_star.
    - cbn. lia.
    - intros u v Hu Hv. apply bpos_inj; assumption.
    - intros v Hv. apply bpos_corner. eauto.
    - exists m. split; [|exact H]. unfold cuboid_mesh. rewrite cuboid_triangles_eq.
      unfold built, mesh_run in E. rewrite foldM_app, adds_run in E.
      destruct (add_triangles _ _ _ _ _ _) as [m0| | | |]; try discriminate. cbn [bind foldM mesh_step] in E |- *.
      destruct (set_opposite_halfedges _ _ _ _ _) as [m1| | | |]; try discriminate. cbn [bind] in E |- *. injection E as ->.
      destruct H as (_ & _ & _ & _ & _ & Hv & Hh & _). rewrite Hv, Hh. destruct dbg; reflexivity.
  Qed.

  Lemma cuboid_outward m N : 0 < det -> good_mesh M W dbg self bv_ok N btris (bpos o x y z) m ->
    forall c, cuboid_inside o x y z c -> outward self m c.
  Proof.
    intros Hd H c (a & b & g & Ha & Hb & Hg & ->). apply H. intros i j k Hin. unfold faces_away.
    destruct (btri_volume o x y z a b g i j k Ha Hb Hg Hin) as (w & Hw & E & _). cbv zeta in E. rewrite E. fold det. nra.
  Qed.
  Lemma cuboid_inward m N : det < 0 -> good_mesh M W dbg self bv_ok N btris (bpos o x y z) m ->
    forall c, cuboid_inside o x y z c -> inward self m c.
  Proof.
    intros Hd H c (a & b & g & Ha & Hb & Hg & ->). apply H. intros i j k Hin. unfold faces_away.
    destruct (btri_volume o x y z a b g i j k Ha Hb Hg Hin) as (w & Hw & _ & E). cbv zeta in E. rewrite E. fold det. nra.
  Qed.
End Cuboid.
