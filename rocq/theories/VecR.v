(** * Lemmas about R^n *)

From Coq Require Import Reals Lra Psatz List Bool.
From Verif Require Import Scalar Linal SpecReal.
Local Open Scope R_scope.

(** equality of vectors, componentwise *)
Lemma vec_ext {n} (u v : vec R n) : vmap2 Rminus u v = rzero -> u = v.
Proof.
  induction n as [|n IH]; destruct u, v; cbn; intros H; [reflexivity|].
  injection H as H1 H2. f_equal; [lra|]. now apply IH.
Qed.

Lemma rdot_comm {n} (u v : vec R n) : rdot u v = rdot v u.
Proof. induction n as [|n IH]; cbn; [reflexivity|]. rewrite IH; ring. Qed.

Lemma rdot_add_l {n} (u v w : vec R n) : rdot (radd u v) w = rdot u w + rdot v w.
Proof. induction n as [|n IH]; cbn; [ring|]. unfold radd in *; rewrite IH; ring. Qed.
Lemma rdot_sub_l {n} (u v w : vec R n) : rdot (rsub u v) w = rdot u w - rdot v w.
Proof. induction n as [|n IH]; cbn; [ring|]. unfold rsub in *; rewrite IH; ring. Qed.
Lemma rdot_scale_l {n} t (u w : vec R n) : rdot (rscale t u) w = t * rdot u w.
Proof. induction n as [|n IH]; cbn; [ring|]. unfold rscale in *; rewrite IH; ring. Qed.
Lemma rdot_add_r {n} (u v w : vec R n) : rdot w (radd u v) = rdot w u + rdot w v.
Proof. rewrite rdot_comm, rdot_add_l, (rdot_comm u), (rdot_comm v); reflexivity. Qed.
Lemma rdot_sub_r {n} (u v w : vec R n) : rdot w (rsub u v) = rdot w u - rdot w v.
Proof. rewrite rdot_comm, rdot_sub_l, (rdot_comm u), (rdot_comm v); reflexivity. Qed.
Lemma rdot_scale_r {n} t (u w : vec R n) : rdot w (rscale t u) = t * rdot w u.
Proof. rewrite rdot_comm, rdot_scale_l, (rdot_comm u); reflexivity. Qed.
Lemma rdot_zero_l {n} (w : vec R n) : rdot rzero w = 0.
Proof. induction n as [|n IH]; cbn; [ring|]. unfold rzero in *; rewrite IH; ring. Qed.
Lemma rdot_zero_r {n} (w : vec R n) : rdot w rzero = 0.
Proof. rewrite rdot_comm; apply rdot_zero_l. Qed.

Lemma rdot_self_nonneg {n} (u : vec R n) : 0 <= rdot u u.
Proof.
  induction n as [|n IH]; cbn; [lra|]. specialize (IH (snd u)).
  pose proof (Rle_0_sqr (fst u)) as H; unfold Rsqr in H; lra.
Qed.

Lemma rdot_self_zero {n} (u : vec R n) : rdot u u = 0 -> u = rzero.
Proof.
  induction n as [|n IH]; [intros; now destruct u|]. destruct u as [a u]; cbn; intros H.
  pose proof (rdot_self_nonneg u); pose proof (Rle_0_sqr a) as H1; unfold Rsqr in H1.
  assert (a * a = 0) by lra. assert (a = 0) by (apply Rmult_integral in H2; tauto).
  subst a. f_equal. apply IH; lra.
Qed.

Global Hint Rewrite @rdot_add_l @rdot_add_r @rdot_sub_l @rdot_sub_r
  @rdot_scale_l @rdot_scale_r @rdot_zero_l @rdot_zero_r : vdotdb.
Ltac vdot := autorewrite with vdotdb.
Ltac vdot_in H := autorewrite with vdotdb in H.

(** make all products [rdot b a] look like [rdot a b] *)
Ltac dcomm := repeat match goal with
  | |- context [rdot ?a ?b] =>
      match goal with
      | |- context [rdot b a] => tryif constr_eq a b then fail else rewrite (rdot_comm b a)
      end
  end.
Ltac vring := vdot; dcomm; ring.

Lemma cauchy_schwarz_sq {n} (u v : vec R n) : rdot u v * rdot u v <= rdot u u * rdot v v.
Proof.
  pose proof (rdot_self_nonneg v) as Hv.
  destruct (Req_dec (rdot v v) 0) as [H0|H0].
  - apply rdot_self_zero in H0; subst; vdot; lra.
  - pose proof (rdot_self_nonneg (rsub (rscale (rdot v v) u) (rscale (rdot u v) v))) as H.
    vdot_in H. rewrite (rdot_comm v u) in H.
    assert (0 < rdot v v) by lra.
    apply Rmult_le_reg_l with (rdot v v); [assumption|]. lra.
Qed.

Lemma rnorm_nonneg {n} (u : vec R n) : 0 <= rnorm u.
Proof. apply sqrt_pos. Qed.
Lemma rnorm_sq {n} (u : vec R n) : rnorm u * rnorm u = rdot u u.
Proof. apply sqrt_sqrt, rdot_self_nonneg. Qed.
Lemma rnorm_zero {n} (u : vec R n) : rnorm u = 0 -> u = rzero.
Proof. intros H; apply rdot_self_zero; rewrite <- rnorm_sq, H; ring. Qed.
Lemma rnorm_rzero {n} : rnorm (@rzero n) = 0.
Proof. unfold rnorm; rewrite rdot_zero_l; apply sqrt_0. Qed.
Lemma rdist_nonneg {n} (u v : vec R n) : 0 <= rdist u v.
Proof. apply rnorm_nonneg. Qed.

Lemma sq_le_abs a b : 0 <= b -> a * a <= b * b -> Rabs a <= b.
Proof. intros; apply Rabs_le; nra. Qed.
Lemma sq_le a b : 0 <= b -> a * a <= b * b -> a <= b.
Proof. intros; nra. Qed.
Lemma sq_eq a b : 0 <= a -> 0 <= b -> a * a = b * b -> a = b.
Proof. intros; nra. Qed.

Lemma cauchy_schwarz {n} (u v : vec R n) : Rabs (rdot u v) <= rnorm u * rnorm v.
Proof.
  apply sq_le_abs.
  - apply Rmult_le_pos; apply rnorm_nonneg.
  - replace (rnorm u * rnorm v * (rnorm u * rnorm v)) with ((rnorm u * rnorm u) * (rnorm v * rnorm v)) by ring.
    rewrite !rnorm_sq; apply cauchy_schwarz_sq.
Qed.

Lemma rnorm_triangle {n} (u v : vec R n) : rnorm (radd u v) <= rnorm u + rnorm v.
Proof.
  pose proof (rnorm_nonneg u); pose proof (rnorm_nonneg v).
  apply sq_le; [lra|].
  rewrite rnorm_sq. vdot.
  pose proof (cauchy_schwarz u v).
  assert (rdot u v <= rnorm u * rnorm v) by (eapply Rle_trans; [apply Rle_abs|exact H1]).
  rewrite (rdot_comm v u), <- !rnorm_sq. nra.
Qed.

Lemma rnorm_scale {n} t (u : vec R n) : rnorm (rscale t u) = Rabs t * rnorm u.
Proof.
  apply sq_eq; [apply rnorm_nonneg|apply Rmult_le_pos; [apply Rabs_pos|apply rnorm_nonneg]|].
  rewrite rnorm_sq. vdot.
  replace (Rabs t * rnorm u * (Rabs t * rnorm u)) with ((Rabs t * Rabs t) * (rnorm u * rnorm u)) by ring.
  rewrite rnorm_sq, <- Rabs_mult, Rabs_pos_eq by (apply Rle_0_sqr). ring.
Qed.

(** ** vector algebra, componentwise *)
Lemma radd_comm {n} (u v : vec R n) : radd u v = radd v u.
Proof. induction n; destruct u, v; cbn; [reflexivity|]; f_equal; [ring|apply IHn]. Qed.
Lemma radd_assoc {n} (u v w : vec R n) : radd u (radd v w) = radd (radd u v) w.
Proof. induction n; destruct u, v, w; cbn; [reflexivity|]; f_equal; [ring|apply IHn]. Qed.
Lemma radd_zero_r {n} (u : vec R n) : radd u rzero = u.
Proof. induction n; destruct u; cbn; [reflexivity|]; f_equal; [ring|apply IHn]. Qed.
Lemma rsub_self {n} (u : vec R n) : rsub u u = rzero.
Proof. induction n; destruct u; cbn; [reflexivity|]; f_equal; [ring|apply IHn]. Qed.
Lemma rsub_zero_r {n} (u : vec R n) : rsub u rzero = u.
Proof. induction n; destruct u; cbn; [reflexivity|]; f_equal; [ring|apply IHn]. Qed.
Lemma rsub_eq_zero {n} (u v : vec R n) : rsub u v = rzero -> u = v.
Proof. apply vec_ext. Qed.
Lemma rsub_add_cancel {n} (u v : vec R n) : rsub (radd u v) u = v.
Proof. induction n; destruct u, v; cbn; [reflexivity|]; f_equal; [ring|apply IHn]. Qed.
Lemma radd_rsub {n} (u v : vec R n) : radd u (rsub v u) = v.
Proof. induction n; destruct u, v; cbn; [reflexivity|]; f_equal; [ring|apply IHn]. Qed.
Lemma rscale_0 {n} (u : vec R n) : rscale 0 u = rzero.
Proof. induction n; destruct u; cbn; [reflexivity|]; f_equal; [ring|apply IHn]. Qed.
Lemma rscale_1 {n} (u : vec R n) : rscale 1 u = u.
Proof. induction n; destruct u; cbn; [reflexivity|]; f_equal; [ring|apply IHn]. Qed.
Lemma rscale_scale {n} a b (u : vec R n) : rscale a (rscale b u) = rscale (a * b) u.
Proof. induction n; destruct u; cbn; [reflexivity|]; f_equal; [ring|apply IHn]. Qed.
Lemma rscale_add {n} t (u v : vec R n) : rscale t (radd u v) = radd (rscale t u) (rscale t v).
Proof. induction n; destruct u, v; cbn; [reflexivity|]; f_equal; [ring|apply IHn]. Qed.
Lemma rscale_rzero {n} t : rscale t (@rzero n) = rzero.
Proof. induction n; cbn; [reflexivity|]; f_equal; [ring|apply IHn]. Qed.

(** Equality through the norm: two vectors are equal if their difference has
    square norm 0. This lets vector equations be proved by [vdot; ring]. *)
Lemma eq_by_dot {n} (u v : vec R n) : rdot (rsub u v) (rsub u v) = 0 -> u = v.
Proof. intros H; apply rsub_eq_zero, rdot_self_zero, H. Qed.

Lemma rdist_sym {n} (u v : vec R n) : rdist u v = rdist v u.
Proof.
  unfold rdist, rnorm. apply (f_equal sqrt). vring.
Qed.
Lemma rdist_self {n} (u : vec R n) : rdist u u = 0.
Proof. unfold rdist; rewrite rsub_self; apply rnorm_rzero. Qed.
Lemma rdist_zero {n} (u v : vec R n) : rdist u v = 0 -> u = v.
Proof. intros H; apply rsub_eq_zero, rnorm_zero, H. Qed.
Lemma rdist_triangle {n} (u v w : vec R n) : rdist u w <= rdist u v + rdist v w.
Proof.
  unfold rdist. replace (rsub u w) with (radd (rsub u v) (rsub v w)); [apply rnorm_triangle|].
  apply eq_by_dot; vring.
Qed.
Lemma rdist_sq {n} (u v : vec R n) : rdist u v * rdist u v = rdot (rsub u v) (rsub u v).
Proof. apply rnorm_sq. Qed.

(** ** the model operations over the reals are the specification ones *)
Section Bridge.
  Context (M : R).
  Lemma dot_R {n} (u v : vec R n) : @dot (RS M) n u v = rdot u v.
  Proof. induction n as [|n IH]; cbn; [reflexivity|]. now rewrite IH. Qed.
  Lemma vadd_R {n} (u v : vec R n) : @vadd (RS M) n u v = radd u v.
  Proof. reflexivity. Qed.
  Lemma vsub_R {n} (u v : vec R n) : @vsub (RS M) n u v = rsub u v.
  Proof. reflexivity. Qed.
  Lemma vscale_R {n} t (v : vec R n) : @vscale (RS M) n t v = rscale t v.
  Proof. reflexivity. Qed.
  Lemma vlength_R {n} (v : vec R n) : @vlength (RS M) n v = rnorm v.
  Proof. unfold vlength, rnorm; cbn. now rewrite dot_R. Qed.
  Lemma vdivs_R {n} (v : vec R n) t : @vdivs (RS M) n v t = rscale (/ t) v.
  Proof.
    induction n as [|n IH]; destruct v; cbn; [reflexivity|]; f_equal; [|apply IH].
    unfold Rdiv; apply Rmult_comm.
  Qed.
  Lemma vneg_R {n} (v : vec R n) : @vneg (RS M) n v = rscale (-1) v.
  Proof.
    induction n as [|n IH]; destruct v; cbn; [reflexivity|]; f_equal; [|apply IH]. ring.
  Qed.
  Lemma normalize_R {n} (v : vec R n) : @normalize (RS M) n v = rscale (/ rnorm v) v.
  Proof. unfold normalize. now rewrite vlength_R, vdivs_R. Qed.
  Lemma projection_R {n} (u v : vec R n) :
    @projection (RS M) n u v = rscale (rdot u v / rdot v v) v.
  Proof. unfold projection; cbn. now rewrite !dot_R. Qed.
  Lemma rejection_R {n} (u v : vec R n) :
    @rejection (RS M) n u v = rsub u (rscale (rdot u v / rdot v v) v).
  Proof. unfold rejection. now rewrite projection_R. Qed.
End Bridge.

Ltac toR := rewrite ?rejection_R, ?projection_R, ?normalize_R, ?vlength_R, ?vdivs_R, ?vneg_R,
  ?vscale_R, ?vadd_R, ?vsub_R, ?dot_R.

Lemma rnorm_normalize {n} (v : vec R n) : v <> rzero -> rnorm (rscale (/ rnorm v) v) = 1.
Proof.
  intros H. rewrite rnorm_scale.
  assert (Hn : rnorm v <> 0) by (intros E; apply H, rnorm_zero, E).
  pose proof (rnorm_nonneg v).
  rewrite Rabs_pos_eq by (apply Rlt_le, Rinv_0_lt_compat; lra).
  now field.
Qed.
