(** * Lemmas: the facet normals of the tessellated cuboid *)

From Coq Require Import List Arith Bool Lia Reals Lra.
From Verif Require Import Scalar Linal Result SpecReal VecR VecLemmas SpecTransform SpecFloatErr SpecTess ProofTransform ProofMeshNormal ProofTessComb ProofTessCuboid ProofVertexNear ProofVertexRound.
Import ListNotations.
Local Open Scope R_scope.

(** the face of a triangle: the axis and the bit that its corners share *)
Definition bface (t : nat * nat * nat) : nat * bool :=
  let '(i, j, k) := t in
  let same b := Bool.eqb (Nat.testbit i b) (Nat.testbit j b) && Bool.eqb (Nat.testbit j b) (Nat.testbit k b) in
  if same 0%nat then (0%nat, Nat.testbit i 0) else if same 1%nat then (1%nat, Nat.testbit i 1) else (2%nat, Nat.testbit i 2).
Definition bfaces (v : nat) : list (nat * bool) := [(0%nat, Nat.testbit v 0); (1%nat, Nat.testbit v 1); (2%nat, Nat.testbit v 2)].
Definition cornerb (v : nat) (t : nat * nat * nat) : bool := let '(x, y, z) := t in (v =? x)%nat || (v =? y)%nat || (v =? z)%nat.
Definition faceb (g g' : nat * bool) : bool := (fst g =? fst g')%nat && Bool.eqb (snd g) (snd g').
Lemma cornerb_spec v t : cornerb v t = true <-> at_corner v t.
Proof. destruct t as [[x y] z]. cbn. rewrite !orb_true_iff, !Nat.eqb_eq. tauto. Qed.
Lemma faceb_spec g g' : faceb g g' = true <-> g = g'.
Proof. destruct g as [a b], g' as [a' b']. unfold faceb. cbn. rewrite andb_true_iff, Nat.eqb_eq, Bool.eqb_true_iff. split; [intros (-> & ->); reflexivity|intros E; injection E; auto]. Qed.

Lemma bfaces_spec v g : bv_ok v -> In g (bfaces v) <-> exists t, In t btris /\ at_corner v t /\ g = bface t.
Proof.
  intros Hv.
  assert (K : forallb (fun v => forallb (fun t => implb (cornerb v t) (existsb (faceb (bface t)) (bfaces v))) btris &&
    forallb (fun g => existsb (fun t => cornerb v t && faceb g (bface t)) btris) (bfaces v)) (seq 0 8) = true) by (vm_compute; reflexivity).
  rewrite forallb_forall in K. specialize (K v ltac:(apply in_seq; unfold bv_ok in Hv; lia)). apply andb_true_iff in K as (K1 & K2). rewrite forallb_forall in K1, K2. split.
  - intros Hg. specialize (K2 g Hg). apply existsb_exists in K2 as (t & Ht & E). apply andb_true_iff in E as (E1 & E2). exists t. split; [exact Ht|]. split; [apply cornerb_spec, E1|apply faceb_spec, E2].
  - intros (t & Ht & Hc & ->). specialize (K1 t Ht). apply cornerb_spec in Hc. rewrite Hc in K1. cbn [implb] in K1. apply existsb_exists in K1 as (g & Hg & E). apply faceb_spec in E. rewrite E. exact Hg.
Qed.

Lemma norm_pos (u : vec R 3) : u <> rzero -> 0 < rnorm u.
Proof. intros H. destruct (rnorm_nonneg u) as [K|K]; [exact K|]. exfalso. apply H, rnorm_zero. symmetry. exact K. Qed.
Lemma triple_l (x y z : vec R 3) : rdot (rcross y z) x = rdot (rcross x y) z.
Proof. v3. ring. Qed.
Lemma cross_l (x y : vec R 3) : rdot (rcross x y) x = 0.
Proof. v3. ring. Qed.
Lemma cross_r (x y : vec R 3) : rdot (rcross x y) y = 0.
Proof. v3. ring. Qed.
Lemma edges_cross (o x y z : vec R 3) i j k : In (i, j, k) btris -> let '(g, b) := bface (i, j, k) in
  rcross (rsub (bpos o x y z j) (bpos o x y z k)) (rsub (bpos o x y z i) (bpos o x y z k)) = rscale (if b then 1 else -1) (match g with O => rcross y z | S O => rcross z x | _ => rcross x y end).
Proof.
  intros H. destruct o as (o1 & o2 & o3 & []), x as (x1 & x2 & x3 & []), y as (y1 & y2 & y3 & []), z as (z1 & z2 & z3 & []). unfold bpos, bit. cbn in H.
  repeat (destruct H as [E|H]; [injection E as <- <- <-; cbn [Nat.testbit Nat.odd Nat.even negb Nat.div2 bface Bool.eqb andb]; unfold cuboid_point; cbn; unfold mk3; repeat (apply f_equal2; [ring|]); reflexivity|]).
  contradiction.
Qed.
Section Box.
  Context (o x y z : vec R 3) (Hd : rdot (rcross x y) z <> 0).
  Definition bdir (k : nat) : vec R 3 := rdirection (match k with O => rcross y z | S O => rcross z x | _ => rcross x y end).
  Definition bval (g : nat * bool) : vec R 3 := rscale (if snd g then 1 else -1) (bdir (fst g)).

  Lemma bcross_ne : rcross y z <> rzero /\ rcross z x <> rzero /\ rcross x y <> rzero.
  Proof.
    repeat split; intros E; apply Hd.
    - rewrite <- triple_l, E. apply rdot_zero_l.
    - rewrite <- triple_l, <- triple_l, E. apply rdot_zero_l.
    - rewrite E. apply rdot_zero_l.
  Qed.
  Lemma bdir_unit k : rnorm (bdir k) = 1.
  Proof. destruct bcross_ne as (A & B & C). unfold bdir. destruct k as [|[|k]]; apply rnorm_normalize; assumption. Qed.
  Lemma bval_unit g : rnorm (bval g) = 1.
  Proof. unfold bval. rewrite rnorm_scale, bdir_unit. destruct (snd g); [rewrite Rabs_right|rewrite Rabs_left]; lra. Qed.
  Definition bcr (k : nat) : vec R 3 := match k with O => rcross y z | S O => rcross z x | _ => rcross x y end.
  Lemma bcr_pos k : 0 < rnorm (bcr k).
  Proof. destruct bcross_ne as (A & B & C). destruct k as [|[|k]]; apply norm_pos; assumption. Qed.
  Lemma bval_sign k (b : bool) (C : vec R 3) : C = rscale (if b then 1 else -1) (bcr k) -> exists l, 0 < l /\ C = rscale l (bval (k, b)).
  Proof.
    intros ->. pose proof (bcr_pos k) as P. exists (rnorm (bcr k)). split; [exact P|]. unfold bval. cbn [fst snd]. change (bdir k) with (rscale (/ rnorm (bcr k)) (bcr k)). rewrite !rscale_scale. f_equal. field. lra.
  Qed.
  Lemma bval_normal i j k : In (i, j, k) btris -> rnorm (bval (bface (i, j, k))) = 1 /\
    exists l, 0 < l /\ rcross (rsub (bpos o x y z j) (bpos o x y z k)) (rsub (bpos o x y z i) (bpos o x y z k)) = rscale l (bval (bface (i, j, k))).
  Proof.
    intros H. split; [apply bval_unit|].
    pose proof (edges_cross o x y z i j k H) as K.
    destruct (bface (i, j, k)) as [g b]. exact (bval_sign g b _ K).
  Qed.

  (** scalar products with the edges *)
  Lemma bdir_x : rdot (bdir 0) x = rdot (rcross x y) z / rnorm (rcross y z) /\ rdot (bdir 1) x = 0 /\ rdot (bdir 2) x = 0.
  Proof.
    unfold bdir, rdirection. rewrite !rdot_scale_l. split; [|split].
    - rewrite triple_l. unfold Rdiv. ring.
    - rewrite cross_r. ring.
    - rewrite cross_l. ring.
  Qed.
  Lemma bdir_y : rdot (bdir 0) y = 0 /\ rdot (bdir 1) y = rdot (rcross x y) z / rnorm (rcross z x) /\ rdot (bdir 2) y = 0.
  Proof.
    unfold bdir, rdirection. rewrite !rdot_scale_l. split; [|split].
    - rewrite cross_l. ring.
    - rewrite triple_l, triple_l. unfold Rdiv. ring.
    - rewrite cross_r. ring.
  Qed.
  Lemma bdir_z : rdot (bdir 0) z = 0 /\ rdot (bdir 1) z = 0 /\ rdot (bdir 2) z = rdot (rcross x y) z / rnorm (rcross x y).
  Proof.
    unfold bdir, rdirection. rewrite !rdot_scale_l. split; [|split].
    - rewrite cross_r. ring.
    - rewrite cross_l. ring.
    - unfold Rdiv. ring.
  Qed.
  Lemma bnorms : 0 < rnorm (rcross y z) /\ 0 < rnorm (rcross z x) /\ 0 < rnorm (rcross x y).
  Proof. destruct bcross_ne as (A & B & C). repeat split; apply norm_pos; assumption. Qed.

  Lemma bval_inj g g' : (fst g < 3)%nat -> (fst g' < 3)%nat -> bval g = bval g' -> g = g'.
  Proof.
    destruct g as [k b], g' as [k' b']. cbn [fst]. intros Hk Hk' E. unfold bval in E. cbn [fst snd] in E.
    pose proof (f_equal (fun u => rdot u x) E) as X. pose proof (f_equal (fun u => rdot u y) E) as Y. pose proof (f_equal (fun u => rdot u z) E) as Z'. cbv beta in X, Y, Z'. rewrite !rdot_scale_l in X, Y, Z'.
    destruct bdir_x as (x0 & x1 & x2), bdir_y as (y0 & y1 & y2), bdir_z as (z0 & z1 & z2). destruct bnorms as (n0 & n1 & n2).
    assert (Q : forall n, 0 < n -> rdot (rcross x y) z / n <> 0) by (intros n Hn Q; apply Hd; apply Rmult_eq_reg_r with (/ n); [unfold Rdiv in Q; lra|apply Rinv_neq_0_compat; lra]).
    pose proof (Q _ n0) as Q0. pose proof (Q _ n1) as Q1. pose proof (Q _ n2) as Q2.
    destruct k as [|[|[|k]]]; try lia; destruct k' as [|[|[|k']]]; try lia; rewrite ?x0, ?x1, ?x2, ?y0, ?y1, ?y2, ?z0, ?z1, ?z2 in X, Y, Z'; destruct b, b'; try reflexivity; exfalso; lra.
  Qed.
  Definition bmeet (v : nat) : list (vec R 3) := map bval (bfaces v).
  Lemma bmeet_NoDup v : NoDup (bmeet v).
  Proof.
    apply NoDup_map_on.
    - intros g g' Hg Hg'. apply bval_inj; [destruct Hg as [<-|[<-|[<-|[]]]]|destruct Hg' as [<-|[<-|[<-|[]]]]]; cbn; lia.
    - unfold bfaces. constructor; [|constructor; [|constructor; [intros []|constructor]]]; cbn [In]; intros K; repeat (destruct K as [K|K]; [discriminate K|]); exact K.
  Qed.
  Lemma bmeet_sum v : rsum (bmeet v) = radd (rscale (2 * bit 0 v - 1) (bdir 0)) (radd (rscale (2 * bit 1 v - 1) (bdir 1)) (rscale (2 * bit 2 v - 1) (bdir 2))).
  Proof.
    assert (S : forall i, (if Nat.testbit v i then 1 else -1) = 2 * bit i v - 1) by (intros i; unfold bit; destruct (Nat.testbit v i); ring).
    unfold bmeet, bfaces, rsum, bval. cbn [map fold_right fst snd]. rewrite !S. rewrite (radd_zero_r (rscale (2 * bit 2 v - 1) (bdir 2))). reflexivity.
  Qed.
  Lemma bsum_ne v : rsum (bmeet v) <> rzero.
  Proof.
    intros E. pose proof (f_equal (fun u => rdot u x) E) as X. cbv beta in X. rewrite bmeet_sum, rdot_zero_l, !rdot_add_l, !rdot_scale_l in X. destruct bdir_x as (x0 & x1 & x2). rewrite x0, x1, x2 in X.
    destruct bnorms as (n0 & _). apply Hd. destruct (bit_01 0 v) as [B|B]; rewrite B in X.
    - apply Rmult_eq_reg_r with (/ rnorm (rcross y z)); [unfold Rdiv in X; lra|apply Rinv_neq_0_compat; lra].
    - apply Rmult_eq_reg_r with (/ rnorm (rcross y z)); [unfold Rdiv in X; lra|apply Rinv_neq_0_compat; lra].
  Qed.
  (** a direction that leans equally towards the three faces at a corner *)
  Definition blean (al be ga : R) : vec R 3 :=
    radd (rscale ((2 * al - 1) * (rnorm (rcross y z) / rdot (rcross x y) z)) x)
      (radd (rscale ((2 * be - 1) * (rnorm (rcross z x) / rdot (rcross x y) z)) y) (rscale ((2 * ga - 1) * (rnorm (rcross x y) / rdot (rcross x y) z)) z)).
  Lemma blean_dot v n : In n (bmeet v) -> rdot n (blean (bit 0 v) (bit 1 v) (bit 2 v)) = 1.
  Proof.
    assert (S : forall i, (if Nat.testbit v i then 1 else -1) = 2 * bit i v - 1) by (intros i; unfold bit; destruct (Nat.testbit v i); ring).
    assert (Q : forall i, (2 * bit i v - 1) * (2 * bit i v - 1) = 1) by (intros i; destruct (bit_01 i v) as [B|B]; rewrite B; ring).
    destruct bdir_x as (x0 & x1 & x2), bdir_y as (y0 & y1 & y2), bdir_z as (z0 & z1 & z2). destruct bnorms as (n0 & n1 & n2).
    intros [<-|[<-|[<-|[]]]]; unfold bval, blean; cbn [fst snd]; rewrite S, rdot_scale_l, !rdot_add_r, !rdot_scale_r.
    - rewrite x0, y0, z0. etransitivity; [|exact (Q 0%nat)]. field. split; first [exact Hd|lra].
    - rewrite x1, y1, z1. etransitivity; [|exact (Q 1%nat)]. field. split; first [exact Hd|lra].
    - rewrite x2, y2, z2. etransitivity; [|exact (Q 2%nat)]. field. split; first [exact Hd|lra].
  Qed.
End Box.
