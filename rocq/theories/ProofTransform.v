(** * Proofs about transformations *)

From Coq Require Import Reals Lra Psatz List Bool Arith Lia.
From Verif Require Import Scalar Linal Result SpecReal SpecBox VecR VecLemmas ModelShapes ModelBox ModelTransform
  SpecTransform ProofMeshNormal.
Local Open Scope R_scope.

(** every homogeneous matrix has a linear part, a translation and a last row *)
Lemma hmat_decompose (m : hmat R) : exists A t l, m = hmat_of A t l.
Proof.
  destruct m as ((a & b & c & x & []) & (d & e & f & y & []) & (g & h & i & z & []) & l & []).
  exists ((a, (b, (c, tt))), ((d, (e, (f, tt))), ((g, (h, (i, tt))), tt))), (x, (y, (z, tt))), l. reflexivity.
Qed.

Ltac mats := repeat match goal with
  | A : vec (vec R 3) 3 |- _ => destruct A as ((? & ? & ? & []) & (? & ? & ? & []) & (? & ? & ? & []) & [])
  | A : vec (vec R 2) 2 |- _ => destruct A as ((? & ? & []) & (? & ? & []) & [])
  | t : vec R 4 |- _ => destruct t as (? & ? & ? & ? & [])
  | t : vec R 3 |- _ => destruct t as (? & ? & ? & [])
  | t : vec R 2 |- _ => destruct t as (? & ? & [])
  end.

Lemma transform_vec3_R M (A : vec (vec R 3) 3) t l (p : vec R 3) :
  @transform_vec (RS M) 3 p (hmat_of A t l) = affine A t p.
Proof.
  mats. cbn. unfold radd. cbn. repeat (apply f_equal2; [ring|]). reflexivity.
Qed.

(** the planar part *)
Definition lin2 (A : vec (vec R 3) 3) : vec (vec R 2) 2 :=
  let '((a, (b, _)), ((d, (e, _)), _)) := A in ((a, (b, tt)), ((d, (e, tt)), tt)).
Definition tr2 (t : vec R 3) : vec R 2 := let '(x, (y, _)) := t in (x, (y, tt)).

Lemma transform_vec2_R M (A : vec (vec R 3) 3) t l (p : vec R 2) :
  @transform_vec (RS M) 2 p (hmat_of A t l) = affine (lin2 A) (tr2 t) p.
Proof. mats. cbn. unfold radd. cbn. repeat (apply f_equal2; [ring|]). reflexivity. Qed.

(** ** affine maps *)
Lemma linear_add {n k} (A : vec (vec R n) k) (u v : vec R n) :
  vmap (fun row => rdot row (radd u v)) A = radd (vmap (fun row => rdot row u) A) (vmap (fun row => rdot row v) A).
Proof.
  induction k as [|k IH]; [reflexivity|]. destruct A as [r A]. cbn [vmap fst snd]. rewrite IH, rdot_add_r. reflexivity.
Qed.
Lemma linear_scale {n k} (A : vec (vec R n) k) s (u : vec R n) :
  vmap (fun row => rdot row (rscale s u)) A = rscale s (vmap (fun row => rdot row u) A).
Proof.
  induction k as [|k IH]; [reflexivity|]. destruct A as [r A]. cbn [vmap fst snd]. rewrite IH, rdot_scale_r. reflexivity.
Qed.

Lemma affine_add {n} (A : vec (vec R n) n) t p u :
  affine A t (radd p u) = radd (affine A t p) (vmap (fun row => rdot row u) A).
Proof. unfold affine. rewrite linear_add. apply eq_by_dot. vring. Qed.
Lemma affine_sub {n} (A : vec (vec R n) n) t p q :
  rsub (affine A t p) (affine A t q) = vmap (fun row => rdot row (rsub p q)) A.
Proof.
  replace p with (radd q (rsub p q)) at 1 by apply radd_rsub. rewrite affine_add. apply rsub_add_cancel.
Qed.
Lemma affine_along {n} (A : vec (vec R n) n) t a b s :
  affine A t (along a (rsub b a) s) = along (affine A t a) (rsub (affine A t b) (affine A t a)) s.
Proof. unfold along. rewrite affine_add, linear_scale, affine_sub. reflexivity. Qed.

(** ** isometries *)
Lemma rdist_eq_sq {n} (p q p' q' : vec R n) : rdist p q = rdist p' q' ->
  rdot (rsub p q) (rsub p q) = rdot (rsub p' q') (rsub p' q').
Proof. intros H. rewrite <- !rdist_sq, H. reflexivity. Qed.

(** polarisation *)
Lemma rigid_dot {n} (f : vec R n -> vec R n) (a b c d : vec R n) : rigid f ->
  rdot (rsub (f a) (f b)) (rsub (f c) (f d)) = rdot (rsub a b) (rsub c d).
Proof.
  intros H.
  assert (K : forall p q, rdot (rsub (f p) (f q)) (rsub (f p) (f q)) = rdot (rsub p q) (rsub p q)).
  { intros p q. apply rdist_eq_sq, H. }
  assert (P : forall x y z w : vec R n, 2 * rdot (rsub x y) (rsub z w) =
     rdot (rsub x w) (rsub x w) + rdot (rsub y z) (rsub y z) - rdot (rsub x z) (rsub x z) - rdot (rsub y w) (rsub y w)).
  { intros. vring. }
  pose proof (P (f a) (f b) (f c) (f d)) as H1. rewrite !K in H1. rewrite <- P in H1. lra.
Qed.

Lemma ortho_expand (c0 c1 c2 x : vec R 3) :
  rdot c0 c0 = 1 -> rdot c1 c1 = 1 -> rdot c2 c2 = 1 -> rdot c0 c1 = 0 -> rdot c0 c2 = 0 -> rdot c1 c2 = 0 ->
  radd (radd (rscale (rdot x c0) c0) (rscale (rdot x c1) c1)) (rscale (rdot x c2) c2) = x.
Proof.
  intros H0 H1 H2 H01 H02 H12.
  set (k := rcross c0 c1).
  assert (Hk : rdot k k = 1).
  { assert (E : rdot k k = rdot c0 c0 * rdot c1 c1 - rdot c0 c1 * rdot c0 c1) by (unfold k; v3; ring).
    rewrite E, H0, H1, H01. ring. }
  assert (D : forall u v : vec R 3, rdot u v = rdot u k * rdot k v + rdot u c0 * rdot c0 v + rdot u c1 * rdot c1 v).
  { intros u v. pose proof (rcross_decompose c0 c1 u v) as E. fold k in E.
    rewrite Hk, H0, H1, H01 in E. lra. }
  assert (K2 : rdot c2 k * rdot c2 k = 1).
  { pose proof (D c2 c2) as E. rewrite (rdot_comm c2 c0), (rdot_comm c2 c1), (rdot_comm k c2), H02, H12, H2 in E. lra. }
  assert (Ec : forall v : vec R 3, rdot c2 v = rdot c2 k * rdot k v).
  { intros v. pose proof (D c2 v) as E. rewrite (rdot_comm c2 c0), (rdot_comm c2 c1), H02, H12 in E. lra. }
  apply eq_by_dot.
  assert (Hx : rdot x x = rdot x c0 * rdot x c0 + rdot x c1 * rdot x c1 + rdot x c2 * rdot x c2).
  { rewrite (D x x) at 1. rewrite (rdot_comm x c2), (Ec x), (rdot_comm k x), (rdot_comm c0 x), (rdot_comm c1 x).
    replace (rdot c2 k * rdot x k * (rdot c2 k * rdot x k)) with (rdot x k * rdot x k * (rdot c2 k * rdot c2 k)) by ring.
    rewrite K2. ring. }
  vdot. rewrite (rdot_comm c0 x), (rdot_comm c1 x), (rdot_comm c2 x), (rdot_comm c1 c0), (rdot_comm c2 c0), (rdot_comm c2 c1),
    H0, H1, H2, H01, H02, H12, Hx. ring.
Qed.

Lemma ortho_expand2 (c0 c1 x : vec R 2) :
  rdot c0 c0 = 1 -> rdot c1 c1 = 1 -> rdot c0 c1 = 0 ->
  radd (rscale (rdot x c0) c0) (rscale (rdot x c1) c1) = x.
Proof.
  intros H0 H1 H01. apply eq_by_dot.
  assert (Hx : rdot x x = rdot x c0 * rdot x c0 + rdot x c1 * rdot x c1).
  { assert (E : (rdot c0 c0 * rdot c1 c1 - rdot c0 c1 * rdot c0 c1) * rdot x x =
       rdot x c0 * rdot x c0 * rdot c1 c1 + rdot x c1 * rdot x c1 * rdot c0 c0 - 2 * rdot x c0 * rdot x c1 * rdot c0 c1).
    { destruct c0 as (? & ? & []), c1 as (? & ? & []), x as (? & ? & []). cbn. ring. }
    rewrite H0, H1, H01 in E. lra. }
  vdot. rewrite (rdot_comm c0 x), (rdot_comm c1 x), (rdot_comm c1 c0), H0, H1, H01, Hx. ring.
Qed.

Lemma affine_rigid_surj3 (A : vec (vec R 3) 3) t : rigid (affine A t) -> forall q, exists p, q = affine A t p.
Proof.
  intros H q. set (f := affine A t) in *.
  set (o := (0, (0, (0, tt))) : vec R 3).
  set (e0 := (1, (0, (0, tt))) : vec R 3). set (e1 := (0, (1, (0, tt))) : vec R 3). set (e2 := (0, (0, (1, tt))) : vec R 3).
  set (c0 := rsub (f e0) (f o)). set (c1 := rsub (f e1) (f o)). set (c2 := rsub (f e2) (f o)).
  set (w := rsub q (f o)).
  exists (radd o (radd (radd (rscale (rdot w c0) e0) (rscale (rdot w c1) e1)) (rscale (rdot w c2) e2))).
  unfold f. rewrite affine_add, !linear_add, !linear_scale.
  assert (E : forall e, vmap (fun row => rdot row e) A = rsub (affine A t (radd o e)) (affine A t o)).
  { intros e. rewrite affine_add. symmetry. apply rsub_add_cancel. }
  rewrite !E.
  replace (radd o e0) with e0 by (unfold o, e0; cbn; repeat (apply f_equal2; [ring|]); reflexivity).
  replace (radd o e1) with e1 by (unfold o, e1; cbn; repeat (apply f_equal2; [ring|]); reflexivity).
  replace (radd o e2) with e2 by (unfold o, e2; cbn; repeat (apply f_equal2; [ring|]); reflexivity).
  fold f c0 c1 c2. rewrite ortho_expand; [unfold w; rewrite radd_rsub; reflexivity|..];
    (unfold c0, c1, c2; rewrite rigid_dot by exact H; cbn; ring).
Qed.

Lemma affine_rigid_surj2 (A : vec (vec R 2) 2) t : rigid (affine A t) -> forall q, exists p, q = affine A t p.
Proof.
  intros H q. set (f := affine A t) in *.
  set (o := (0, (0, tt)) : vec R 2). set (e0 := (1, (0, tt)) : vec R 2). set (e1 := (0, (1, tt)) : vec R 2).
  set (c0 := rsub (f e0) (f o)). set (c1 := rsub (f e1) (f o)).
  set (w := rsub q (f o)).
  exists (radd o (radd (rscale (rdot w c0) e0) (rscale (rdot w c1) e1))).
  unfold f. rewrite affine_add, !linear_add, !linear_scale.
  assert (E : forall e, vmap (fun row => rdot row e) A = rsub (affine A t (radd o e)) (affine A t o)).
  { intros e. rewrite affine_add. symmetry. apply rsub_add_cancel. }
  rewrite !E.
  replace (radd o e0) with e0 by (unfold o, e0; cbn; repeat (apply f_equal2; [ring|]); reflexivity).
  replace (radd o e1) with e1 by (unfold o, e1; cbn; repeat (apply f_equal2; [ring|]); reflexivity).
  fold f c0 c1. rewrite ortho_expand2; [unfold w; rewrite radd_rsub; reflexivity|..];
    (unfold c0, c1; rewrite rigid_dot by exact H; cbn; ring).
Qed.

(** a set described by distances and angles is mapped onto the set described
    alike *)
Lemma image_rigid {n} (f : vec R n -> vec R n) (X Y : vec R n -> Prop) :
  (forall q, exists p, q = f p) -> (forall p, X p <-> Y (f p)) -> is_image f X Y.
Proof.
  intros Hs H q. split.
  - intros HY. destruct (Hs q) as (p & ->). exists p. split; [apply H, HY|reflexivity].
  - intros (p & HX & ->). apply H, HX.
Qed.

Lemma segment_image (A : vec (vec R 3) 3) t (a b : vec R 3) :
  is_image (affine A t) (on_segment a b) (on_segment (affine A t a) (affine A t b)).
Proof.
  intros q. split.
  - intros (s & Hs & ->). exists (along a (rsub b a) s). split; [exists s; auto|]. symmetry. apply affine_along.
  - intros (p & (s & Hs & ->) & ->). exists s. split; [exact Hs|]. apply affine_along.
Qed.

Lemma sphere_image (A : vec (vec R 3) 3) t c r : rigid (affine A t) ->
  is_image (affine A t) (on_sphere c r) (on_sphere (affine A t c) r).
Proof.
  intros H. apply image_rigid; [apply affine_rigid_surj3, H|]. intros p. unfold on_sphere. rewrite H. tauto.
Qed.
Lemma circle2_image (A : vec (vec R 2) 2) t c r : rigid (affine A t) ->
  is_image (affine A t) (on_sphere c r) (on_sphere (affine A t c) r).
Proof.
  intros H. apply image_rigid; [apply affine_rigid_surj2, H|]. intros p. unfold on_sphere. rewrite H. tauto.
Qed.

Lemma axis_image (A : vec (vec R 3) 3) t (a b : vec R 3) (g : R -> R) : rigid (affine A t) ->
  is_image (affine A t)
    (fun p => exists s, 0 <= s <= 1 /\ rdot (rsub p (along a (rsub b a) s)) (rsub b a) = 0 /\ rdist p (along a (rsub b a) s) <= g s)
    (fun p => exists s, 0 <= s <= 1 /\
       rdot (rsub p (along (affine A t a) (rsub (affine A t b) (affine A t a)) s)) (rsub (affine A t b) (affine A t a)) = 0 /\
       rdist p (along (affine A t a) (rsub (affine A t b) (affine A t a)) s) <= g s).
Proof.
  intros H. apply image_rigid; [apply affine_rigid_surj3, H|].
  intros p. split; intros (s & Hs & H1 & H2); exists s; (split; [exact Hs|]).
  - rewrite <- affine_along, rigid_dot, H by exact H. auto.
  - rewrite <- affine_along, rigid_dot, H in * by exact H. auto.
Qed.

Lemma circle3_image (A : vec (vec R 3) 3) t (o n : vec R 3) r (k : R) :
  rigid (affine A t) -> k * k = 1 -> rsub (affine A t n) (affine A t rzero) = rscale k n ->
  is_image (affine A t) (on_circle o r n) (on_circle (affine A t o) r n).
Proof.
  intros H Hk Hn. apply image_rigid; [apply affine_rigid_surj3, H|]. intros p. unfold on_circle. rewrite H.
  assert (E : k * rdot n (rsub (affine A t p) (affine A t o)) = rdot n (rsub p o)).
  { rewrite <- rdot_scale_l, <- Hn, rigid_dot by exact H. rewrite rsub_zero_r. reflexivity. }
  assert (k <> 0) by nra.
  split; intros [H1 H2]; (split; [exact H1|]).
  - rewrite H2 in E. apply Rmult_integral in E. tauto.
  - rewrite <- E, H2. ring.
Qed.

(** ** boxes *)
Lemma rdot_comp {n} (u v : vec R n) : forall lo, (forall i, (i < n)%nat -> 0 <= comp i u) ->
  (forall i, (i < n)%nat -> comp i lo <= comp i v) -> rdot u lo <= rdot u v.
Proof.
  induction n as [|n IH]; intros lo Hu Hv; [cbn; lra|]. destruct u as [a u], v as [b v], lo as [c lo]. cbn.
  pose proof (Hu 0%nat ltac:(lia)) as H0. pose proof (Hv 0%nat ltac:(lia)) as H1. cbn in H0, H1.
  pose proof (Rmult_le_compat_l a c b H0 H1).
  assert (rdot u lo <= rdot u v).
  { apply IH; intros i Hi; [apply (Hu (S i)); lia|apply (Hv (S i)); lia]. }
  lra.
Qed.

Lemma comp_affine {n} (A : vec (vec R n) n) t p i : (i < n)%nat ->
  comp i (affine A t p) = rdot (vnth rzero i A) p + comp i t.
Proof.
  intros Hi. unfold comp, affine, radd. rewrite (vnth_vmap2 0 0 0) by exact Hi.
  rewrite (vnth_vmap rzero 0) by exact Hi. reflexivity.
Qed.

Lemma box_nonneg_matrix {n} (A : vec (vec R n) n) t (lo hi x : vec R n) :
  (forall i j, (i < n)%nat -> (j < n)%nat -> 0 <= comp j (vnth rzero i A)) ->
  in_box lo hi x -> in_box (affine A t lo) (affine A t hi) (affine A t x).
Proof.
  intros HA Hx i Hi. rewrite !comp_affine by exact Hi.
  assert (rdot (vnth rzero i A) lo <= rdot (vnth rzero i A) x) by (apply rdot_comp; [auto|intros; apply Hx; auto]).
  assert (rdot (vnth rzero i A) x <= rdot (vnth rzero i A) hi) by (apply rdot_comp; [auto|intros; apply Hx; auto]).
  lra.
Qed.

Lemma box_negative_entry {n} (A : vec (vec R n) n) t (i j : nat) : (i < n)%nat -> (j < n)%nat ->
  comp j (vnth rzero i A) < 0 ->
  exists lo hi x : vec R n, (forall k, (k < n)%nat -> comp k lo < comp k hi) /\ in_box lo hi x /\
    ~ in_box (affine A t lo) (affine A t hi) (affine A t x).
Proof.
  intros Hi Hj Hneg.
  exists rzero, (vconst n 1).
  destruct (vec_of_fun 0 n (fun k => if (k =? j)%nat then 1 else 0)) as [x Hx]. exists x.
  assert (Z : forall k, (k < n)%nat -> comp k (@rzero n) = 0) by (intros; apply vnth_vconst; assumption).
  assert (O : forall k, (k < n)%nat -> comp k (vconst n 1) = 1) by (intros; apply vnth_vconst; assumption).
  split; [intros k Hk; rewrite Z, O by assumption; lra|].
  split. { intros k Hk. rewrite Z, O by assumption. unfold comp. rewrite Hx by assumption. destruct (k =? j)%nat; lra. }
  intros H. specialize (H i Hi). rewrite !comp_affine in H by exact Hi.
  assert (E : rdot (vnth rzero i A) x = comp j (vnth rzero i A)).
  { clear -Hx Hj. revert x Hx. generalize (vnth rzero i A). intros row. clear A i. revert j Hj row.
    induction n as [|n IH]; intros j Hj row x Hx; [lia|]. destruct row as [a row], x as [b x].
    pose proof (Hx 0%nat ltac:(lia)) as H0. cbn in H0 |- *. destruct j as [|j].
    - cbn. rewrite H0. replace (rdot row x) with 0; [ring|].
      symmetry. replace x with (@rzero n); [apply rdot_zero_r|]. symmetry. apply (vec_ext_nth 0). intros k Hk.
      unfold rzero. rewrite (vnth_vconst 0) by exact Hk. apply (Hx (S k)). lia.
    - cbn. rewrite H0. unfold comp in *. rewrite (IH j ltac:(lia) row x); [ring|]. intros k Hk. apply (Hx (S k)). lia. }
  rewrite E, rdot_zero_r in H. lra.
Qed.
