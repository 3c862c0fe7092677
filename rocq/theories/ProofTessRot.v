(** * A rotation of the z axis into any direction but its opposite *)

From Coq Require Import Reals Lra List Bool.
From Verif Require Import Scalar Linal SpecReal VecR VecLemmas ModelShapes ModelTransform SpecTransform ModelTess SpecTess.
Local Open Scope R_scope.

(** the matrix of Moeller and Hughes for the unit vector (x, y, z), z <> -1 *)
Definition rot_to (d : vec R 3) : vec (vec R 3) 3 :=
  let '(x, (y, (z, _))) := d in
  let k := / (1 + z) in
  ((1 - k * x * x, (- (k * x * y), (x, tt))),
   ((- (k * x * y), (1 - k * y * y, (y, tt))),
    ((- x, (- y, (z, tt))), tt))).

Lemma rot_to_onto (d : vec R 3) : rdot d d = 1 -> d <> (0, (0, (-1, tt))) -> rotation_onto (rot_to d) d.
Proof.
  destruct d as (x & y & z & []). intros Hu Hne. cbn in Hu.
  assert (Hz : 1 + z <> 0).
  { intros E. apply Hne. assert (z = -1) by lra. subst z. assert (x * x + y * y = 0) by lra.
    assert (x = 0) by nra. assert (y = 0) by nra. subst. reflexivity. }
  set (k := / (1 + z)).
  assert (K2 : k * (1 + z) = 1) by (unfold k; apply Rinv_l; exact Hz).
  assert (K1 : k * (x * x + y * y) = 1 - z).
  { apply Rmult_eq_reg_r with (1 + z); [|exact Hz]. replace (k * (x * x + y * y) * (1 + z)) with (k * (1 + z) * (x * x + y * y)) by ring.
    rewrite K2. lra. }
  split; [|split].
  - intros (a & b & c & []) (a' & b' & c' & []). unfold rdist, rnorm. f_equal. cbn. fold k.
    set (u := a - a'). set (v := b - b'). set (w := c - c').
    replace ((1 - k * x * x) * a + (- (k * x * y) * b + (x * c + 0)) + 0 - ((1 - k * x * x) * a' + (- (k * x * y) * b' + (x * c' + 0)) + 0))
      with ((1 - k * x * x) * u - k * x * y * v + x * w) by (unfold u, v, w; ring).
    replace (- (k * x * y) * a + ((1 - k * y * y) * b + (y * c + 0)) + 0 - (- (k * x * y) * a' + ((1 - k * y * y) * b' + (y * c' + 0)) + 0))
      with (- k * x * y * u + (1 - k * y * y) * v + y * w) by (unfold u, v, w; ring).
    replace (- x * a + (- y * b + (z * c + 0)) + 0 - (- x * a' + (- y * b' + (z * c' + 0)) + 0))
      with (- x * u - y * v + z * w) by (unfold u, v, w; ring).
    set (D1 := k * (x * x + y * y) - (1 - z)). set (D2 := k * (1 + z) - 1).
    assert (Z1 : D1 = 0) by (unfold D1; lra). assert (Z2 : D2 = 0) by (unfold D2; lra).
    assert (Z3 : x * x + y * y + z * z - 1 = 0) by lra.
    transitivity (u * u + v * v + w * w + (x * u + y * v) * (x * u + y * v) * (k * D1 - D2) - 2 * (x * u + y * v) * w * D1
      + w * w * (x * x + y * y + z * z - 1)); [unfold D1, D2; ring|].
    rewrite Z1, Z2, Z3. ring.
  - cbn. fold k. 
    replace ((- (k * x * y) * y - x * (1 - k * y * y)) * - x + ((x * - (k * x * y) - (1 - k * x * x) * y) * - y +
      (((1 - k * x * x) * (1 - k * y * y) - - (k * x * y) * - (k * x * y)) * z + 0)))
      with (x * x + y * y + z * z + z * (1 - z - k * (x * x + y * y))) by ring.
    rewrite K1. lra.
  - cbn. fold k. repeat (apply f_equal2; [ring|]). reflexivity.
Qed.

Definition meq_exact {M} : hmat (RS M) -> hmat (RS M) -> bool := vall2 (fun u v => vall2 Reqb u v).
Lemma meq_exact_eq M (A B : hmat (RS M)) : meq_exact A B = true -> A = B.
Proof.
  assert (K : forall n (u v : vec R n), vall2 Reqb u v = true -> u = v).
  { intros n u v. apply (proj1 (vec_eqb_exact M n u v)). }
  unfold meq_exact. intros H. apply (vec_ext_nth (rzero : vec R 4)). intros i Hi.
  rewrite (vall2_true (rzero : vec R 4) (rzero : vec R 4)) in H. apply K, H, Hi.
Qed.

(** a library meeting the contract *)
Definition rot_align_ref {M} (u v : hvec (RS M)) : hmat (RS M) :=
  let '(x, (y, (z, _))) := v in hmat_of (rot_to (x, (y, (z, tt)))) (0, (0, (0, tt))) (0, (0, (0, (1, tt)))).

Lemma aligned_ref M (s : segment (RS M) 3) : 0 < rdist (g_target s : vec R 3) (g_source s) ->
  @segment_direction (RS M) 3 s <> (0, (0, (-1, tt))) ->
  aligned rot_align_ref meq_exact s (rot_to (@segment_direction (RS M) 3 s)).
Proof.
  intros Hl Hd. split.
  - apply rot_to_onto; [|exact Hd]. unfold segment_direction. rewrite vsub_R, normalize_R.
    set (w := rsub (g_target s : vec R 3) (g_source s)) in *.
    assert (Hw : w <> rzero) by (intros E; unfold rdist in Hl; fold w in Hl; rewrite E, rnorm_rzero in Hl; lra).
    pose proof (rnorm_normalize w Hw) as K. rewrite <- rnorm_sq, K. ring.
  - exists (0, (0, (0, tt))), (0, (0, (0, (1, tt)))). split.
    + unfold rot_align_ref, to_hvec. destruct (segment_direction s) as (x & y & z & []). reflexivity.
    + apply meq_exact_eq.
Qed.
