(** * The volume enclosed by the tessellations *)

From Coq Require Import List Arith Bool Lia Permutation Reals Lra.
From Verif Require Import Scalar Linal Result SpecReal VecR VecLemmas ModelShapes ModelTransform SpecTransform
  ProofTransform ModelMesh SpecMesh ProofMeshNormal ModelTess SpecTess ProofTessComb ProofTessConn ProofTessMesh ProofTessSphere ProofTessRound
  ProofTess ProofTessCuboid.
Import ListNotations.
Local Open Scope R_scope.

(** ** Sums *)
Lemma sumR_app l l' : sumR (l ++ l') = sumR l + sumR l'.
Proof. unfold sumR. induction l as [|x l IH]; cbn in *; [ring|rewrite IH; ring]. Qed.
Lemma sumR_perm l l' : Permutation l l' -> sumR l = sumR l'.
Proof. unfold sumR. induction 1; cbn in *; lra. Qed.
Lemma sumR_scale {A} (f : A -> R) k l : sumR (map (fun x => k * f x) l) = k * sumR (map f l).
Proof. unfold sumR. induction l as [|x l IH]; cbn in *; [ring|rewrite IH; ring]. Qed.
Lemma sumR_minus {A} (f g : A -> R) l : sumR (map (fun x => f x - g x) l) = sumR (map f l) - sumR (map g l).
Proof. unfold sumR. induction l as [|x l IH]; cbn in *; [ring|rewrite IH; ring]. Qed.
Lemma sumR_ext {A} (f g : A -> R) l : (forall x, In x l -> f x = g x) -> sumR (map f l) = sumR (map g l).
Proof. intros H. f_equal. apply map_ext_in, H. Qed.
Lemma sumR_const {A} (f : A -> R) k l : (forall x, In x l -> f x = k) -> sumR (map f l) = INR (length l) * k.
Proof.
  induction l as [|x l IH]; intros H; [cbn; ring|]. cbn [map length]. rewrite S_INR. unfold sumR in *. cbn [fold_right].
  rewrite IH, (H x) by (cbn in *; auto). ring.
Qed.
Lemma sumR_flat {A B} (f : B -> R) (g : A -> list B) l : sumR (map f (flat_map g l)) = sumR (map (fun x => sumR (map f (g x))) l).
Proof. induction l as [|x l IH]; [reflexivity|]. cbn [flat_map map]. rewrite map_app, sumR_app, IH. reflexivity. Qed.

(** an antisymmetric function cancels on a closed surface *)
Lemma sum_antisym {V} (es : list (V * V)) (f : V -> V -> R) : closed_oriented es -> (forall u v, f v u = - f u v) ->
  sumR (map (fun e => f (fst e) (snd e)) es) = 0.
Proof.
  intros [Hn Hc] Hf.
  assert (P : Permutation es (map (fun e => (snd e, fst e)) es)).
  { apply NoDup_Permutation; [exact Hn| |].
    - apply FinFun.Injective_map_NoDup; [|exact Hn]. intros [u v] [u' v'] E. cbn in E. congruence.
    - intros [u v]. rewrite in_map_iff. split.
      + intros H. exists (v, u). split; [reflexivity|]. apply Hc, H.
      + intros ([u' v'] & E & H). cbn in E. injection E as <- <-. apply Hc, H. }
  pose proof (sumR_perm _ _ (Permutation_map (fun e => f (fst e) (snd e)) P)) as E. rewrite map_map in E. cbn [fst snd] in E.
  rewrite (sumR_ext (fun e : V * V => f (snd e) (fst e)) (fun e => -1 * f (fst e) (snd e))) in E
    by (intros [u v] _; cbn [fst snd]; rewrite Hf; ring).
  rewrite sumR_scale in E. lra.
Qed.

Lemma sum_edges {V} (ts : list (V * V * V)) (f : V -> V -> R) :
  sumR (map (fun e => f (fst e) (snd e)) (flat_map edges3 ts)) = sumR (map (fun t => let '(x, y, z) := t in f x y + f y z + f z x) ts).
Proof. rewrite sumR_flat. apply sumR_ext. intros [[x y] z] _. unfold sumR. cbn. ring. Qed.

(** ** Signed volumes *)
Definition sixvol (c q0 q1 q2 : vec R 3) : R := rdot (rcross (rsub q0 c) (rsub q1 c)) (rsub q2 c).
Lemma sixvol_rot c q0 q1 q2 : sixvol c q0 q1 q2 = sixvol c q1 q2 q0.
Proof. unfold sixvol. v3. ring. Qed.

(** six times the volume of the solid with the vertices at [pos]: the triangles
    reach the mesh with their corners reversed *)
Definition solid6 {V} (pos : V -> vec R 3) (c : vec R 3) (tris : list (V * V * V)) : R :=
  sumR (map (fun t => let '(x, y, z) := t in sixvol c (pos z) (pos y) (pos x)) tris).

Lemma solid6_apex {V} (pos : V -> vec R 3) c c' tris : closed_oriented (flat_map edges3 tris) -> solid6 pos c tris = solid6 pos c' tris.
Proof.
  assert (K : forall c, closed_oriented (flat_map edges3 tris) -> solid6 pos c tris = solid6 pos rzero tris).
  { clear c c'. intros c Hc. pose proof (sum_antisym _ (fun u v => rdot c (rcross (pos u) (pos v))) Hc) as E.
    rewrite sum_edges in E. unfold solid6.
    rewrite (sumR_ext _ (fun t => (let '(x, y, z) := t in sixvol rzero (pos z) (pos y) (pos x)) -
      (-1) * (let '(x, y, z) := t in rdot c (rcross (pos x) (pos y)) + rdot c (rcross (pos y) (pos z)) + rdot c (rcross (pos z) (pos x))))).
    - rewrite sumR_minus, sumR_scale, E; [ring|].
      intros u v. generalize (pos u), (pos v). intros. v3. ring.
    - intros [[x y] z] _. generalize (pos x), (pos y), (pos z). intros. unfold sixvol, rzero. v3. cbn. ring. }
  intros H. rewrite (K c H), (K c' H). reflexivity.
Qed.

Lemma solid6_affine {V} (A : vec (vec R 3) 3) t (pos : V -> vec R 3) c tris :
  solid6 (fun v => affine A t (pos v)) (affine A t c) tris = det3 A * solid6 pos c tris.
Proof.
  unfold solid6. rewrite <- sumR_scale. apply sumR_ext. intros [[x y] z] _. unfold sixvol. rewrite !affine_sub.
  generalize (rsub (pos x) c), (rsub (pos y) c), (rsub (pos z) c). intros u v w. unfold det3.
  destruct A as (a1 & a2 & a3 & []). v3. cbn. ring.
Qed.

(** rotations keep volumes *)
Lemma rigid_det (A : vec (vec R 3) 3) : rigid (affine A rzero) -> 0 < det3 A -> det3 A = 1.
Proof.
  intros HA Hd.
  set (e1 := (1, (0, (0, tt))) : vec R 3). set (e2 := (0, (1, (0, tt))) : vec R 3). set (e3 := (0, (0, (1, tt))) : vec R 3).
  assert (D : forall u v : vec R 3, rdot (affine A rzero u) (affine A rzero v) = rdot u v).
  { intros u v. pose proof (rigid_dot (affine A rzero) u rzero v rzero HA) as E.
    assert (Z : affine A rzero rzero = rzero).
    { unfold affine, rzero. destruct A as (a1 & a2 & a3 & []). v3. cbn. repeat (apply f_equal2; [ring|]). reflexivity. }
    assert (N : forall w : vec R 3, rsub w rzero = w) by (intros w; unfold rzero; v3; cbn; repeat (apply f_equal2; [ring|]); reflexivity).
    rewrite Z, !N in E. exact E. }
  pose proof (D e1 e1) as D11. pose proof (D e1 e2) as D12. pose proof (D e1 e3) as D13.
  pose proof (D e2 e2) as D22. pose proof (D e2 e3) as D23. pose proof (D e3 e3) as D33.
  assert (S : det3 A * det3 A = 1).
  { transitivity (rdot (affine A rzero e1) (affine A rzero e1) * (rdot (affine A rzero e2) (affine A rzero e2) * rdot (affine A rzero e3) (affine A rzero e3) - rdot (affine A rzero e2) (affine A rzero e3) * rdot (affine A rzero e2) (affine A rzero e3))
      - rdot (affine A rzero e1) (affine A rzero e2) * (rdot (affine A rzero e1) (affine A rzero e2) * rdot (affine A rzero e3) (affine A rzero e3) - rdot (affine A rzero e2) (affine A rzero e3) * rdot (affine A rzero e1) (affine A rzero e3))
      + rdot (affine A rzero e1) (affine A rzero e3) * (rdot (affine A rzero e1) (affine A rzero e2) * rdot (affine A rzero e2) (affine A rzero e3) - rdot (affine A rzero e2) (affine A rzero e2) * rdot (affine A rzero e1) (affine A rzero e3))).
    - clear. unfold det3, affine, e1, e2, e3, rzero. destruct A as ((x1 & x2 & x3 & []) & (y1 & y2 & y3 & []) & (z1 & z2 & z3 & []) & []). cbn. ring.
    - rewrite D11, D12, D13, D22, D23, D33. unfold e1, e2, e3. cbn. ring. }
  nra.
Qed.

(** ** The mesh *)
Lemma good_volume M W dbg self {V} (ok : V -> Prop) N tris (pos : V -> vec R 3) m c c' :
  good_mesh M W dbg self ok N tris pos m -> closed_oriented (flat_map edges3 tris) -> volume c m = solid6 pos c' tris / 6.
Proof.
  intros (_ & _ & _ & _ & _ & _ & _ & _ & _ & _ & _ & Ht & _) Hc.
  rewrite <- (solid6_apex pos c c' tris Hc). unfold volume, solid6.
  rewrite <- (map_map (facet_triangle m) (fun t => match t with Some (q0, q1, q2) => rdot (rcross (rsub q0 c) (rsub q1 c)) (rsub q2 c) / 6 | None => 0 end)).
  rewrite Ht. unfold solid_triangles. rewrite !map_map. unfold Rdiv. rewrite Rmult_comm, <- sumR_scale.
  apply sumR_ext. intros [[x y] z] _. cbn [map3 rev3]. unfold sixvol. apply Rmult_comm.
Qed.

(** ** The sphere *)
Section Sphere.
  Context (p a : nat) (Hp : (2 <= p)%nat) (Ha : (3 <= a)%nat) (o : vec R 3) (r : R).
  Let d := 2 * PI / INR a.
  Let e := PI / INR p.

  Lemma polar_sixvol th1 th2 th3 ph ps :
    sixvol o (polar o r th1 ph) (polar o r th2 ph) (polar o r th3 ps) = r * r * r * (sin (th2 - th1) * sin th3 * sin (ps - ph)).
  Proof. unfold sixvol, polar. rewrite !sin_minus. destruct o as (x & y & z & []). cbn. ring. Qed.

  Definition weight (t : stag) : R :=
    match t with TT _ | TB _ => sin e | BA i _ => sin (pol p i) | BB i _ => sin (pol p (i + 1)) end.

  Lemma stri_sixvol t : tag_ok p a t -> let '(x, y, z) := stri p a t in
    sixvol o (spos p a o r z) (spos p a o r y) (spos p a o r x) = r * r * r * sin e * sin d * weight t.
  Proof.
    assert (Pv : forall i j, (j < a)%nat -> spos p a o r (Ring i (prv a j)) = polar o r (pol p (i + 1)) (azi a j - d)).
    { intros i j Hj. cbn [spos]. unfold polar. destruct (azi_prv a Ha j Hj) as [-> ->]. reflexivity. }
    assert (Tp : forall ph, spos p a o r Top = polar o r 0 ph).
    { intros ph. cbn [spos]. unfold polar. rewrite sin_0, !Rmult_0_l. reflexivity. }
    assert (Bt : forall ph, spos p a o r Bot = polar o r PI ph).
    { intros ph. cbn [spos]. unfold polar. rewrite sin_PI, !Rmult_0_l. reflexivity. }
    assert (Hpe : forall k, pol p (k + 1) = pol p k + e) by (intros k; unfold pol, e; rewrite plus_INR; cbn; ring).
    assert (P1 : pol p (0 + 1) = e) by (unfold pol; cbn; unfold e; ring).
    assert (P2 : sin (pol p (p - 2 + 1)) = sin e).
    { rewrite <- (sin_PI_x e). f_equal. pose proof (pol_full p Hp) as F. unfold pol. fold e in F |- *.
      replace (p - 2 + 1)%nat with (p - 1)%nat by lia. rewrite minus_INR by lia. cbn [INR]. lra. }
    destruct t as [j|j|i j|i j]; cbn [tag_ok stri weight]; intros Ht; rewrite ?Pv by lia.
    - rewrite (Tp (azi a j - d)). change (spos p a o r (Ring 0 j)) with (polar o r (pol p (0 + 1)) (azi a j)).
      rewrite sixvol_rot, sixvol_rot, sixvol_rot. rewrite P1. rewrite sixvol_rot, sixvol_rot, polar_sixvol.
      replace (e - 0) with e by ring. replace (azi a j - (azi a j - d)) with d by ring. ring.
    - rewrite (Bt (azi a j - d)). change (spos p a o r (Ring (p - 2) j)) with (polar o r (pol p (p - 2 + 1)) (azi a j)).
      rewrite polar_sixvol, sin_PI_x, P2. replace (azi a j - (azi a j - d)) with d by ring. ring.
    - change (spos p a o r (Ring (i - 1) j)) with (polar o r (pol p (i - 1 + 1)) (azi a j)). rewrite polar_sixvol.
      replace (i - 1 + 1)%nat with i by lia. rewrite Hpe. replace (pol p i + e - pol p i) with e by ring.
      replace (azi a j - (azi a j - d)) with d by ring. ring.
    - change (spos p a o r (Ring (i - 1) j)) with (polar o r (pol p (i - 1 + 1)) (azi a j)).
      change (spos p a o r (Ring i j)) with (polar o r (pol p (i + 1)) (azi a j)). rewrite polar_sixvol.
      replace (i - 1 + 1)%nat with i by lia. rewrite Hpe.
      replace (pol p i - (pol p i + e)) with (- e) by ring. replace (azi a j - d - azi a j) with (- d) by ring. rewrite !sin_neg. ring.
  Qed.

  Lemma ctri_sixvol t : tag_ok p a t -> let '(x, y, z) := ctri p a t in
    sixvol o (spos p a o r z) (spos p a o r y) (spos p a o r x) = r * r * r * sin e * sin d * weight t.
  Proof.
    intros Ht. pose proof (stri_sixvol t Ht) as K. destruct t as [[|j]|[|j]|i [|j]|i [|j]]; cbn [ctri stri] in *; unfold prv in *; cbn [Nat.eqb] in *;
      solve [exact K | rewrite sixvol_rot; exact K | rewrite sixvol_rot, sixvol_rot; exact K].
  Qed.

  Lemma sum_pol n : 2 * sin e * sumR (map (fun i => sin (pol p i)) (seq 1 n)) = 1 + cos e - cos (pol p n) - cos (pol p (n + 1)).
  Proof.
    induction n as [|n IH].
    - cbn [seq map]. unfold sumR, pol. cbn [fold_right INR Nat.add]. rewrite Rmult_0_l, Rmult_1_l, cos_0. fold e. ring.
    - rewrite seq_S, map_app, sumR_app. cbn [map]. replace (sumR [sin (pol p (1 + n))]) with (sin (pol p (1 + n))) by (unfold sumR; cbn [fold_right]; ring).
      rewrite Rmult_plus_distr_l, IH.
      assert (E1 : pol p (1 + n) = pol p n + e) by (unfold pol, e; rewrite plus_INR; cbn [INR]; ring).
      assert (E2 : pol p (S n + 1) = pol p n + e + e) by (unfold pol, e; rewrite plus_INR, S_INR; cbn [INR]; ring).
      replace (n + 1)%nat with (1 + n)%nat by lia. change (S n) with (1 + n)%nat in E2 |- *. rewrite E2, E1.
      replace (cos (pol p n)) with (cos ((pol p n + e) - e)) by (f_equal; ring). rewrite cos_minus, (cos_plus (pol p n + e) e). ring.
  Qed.

  Lemma sphere_solid6 : solid6 (spos p a o r) o (map (ctri p a) (ctags p a)) = 2 * INR a * sin d * (1 + cos e) * (r * r * r).
  Proof.
    unfold solid6. rewrite map_map.
    rewrite (sumR_ext _ (fun t => r * r * r * sin e * sin d * weight t)).
    2:{ intros t Ht. apply (ctags_ok p a Hp Ha) in Ht. pose proof (ctri_sixvol t Ht) as K. destruct (ctri p a t) as [[x y] z]. exact K. }
    rewrite sumR_scale. unfold ctags. rewrite !map_app, !sumR_app, !sumR_flat. cbn [map].
    rewrite (sumR_const (fun x => sumR [weight (TT x); weight (TB x)]) (2 * sin e)) by (intros x _; unfold sumR; cbn; ring).
    rewrite (sumR_ext _ (fun i => INR a * (sin (pol p i) + sin (pol p (i + 1))))).
    2:{ intros i _. rewrite map_app, sumR_app, sumR_flat. cbn [map].
        rewrite (sumR_const (fun x => sumR [weight (BA i x); weight (BB i x)]) (sin (pol p i) + sin (pol p (i + 1)))) by (intros x _; unfold sumR; cbn; ring).
        rewrite seq_length, minus_INR by lia. unfold sumR. cbn [fold_right weight INR]. ring. }
    rewrite sumR_scale, seq_length, minus_INR by lia. cbn [INR].
    assert (E : sumR (map (fun i => sin (pol p i) + sin (pol p (i + 1))) (seq 1 (p - 2))) =
      2 * sumR (map (fun i => sin (pol p i)) (seq 1 (p - 1))) - 2 * sin e).
    { assert (G : forall n, sumR (map (fun i => sin (pol p i) + sin (pol p (i + 1))) (seq 1 n)) =
        2 * sumR (map (fun i => sin (pol p i)) (seq 1 n)) - sin e + sin (pol p (n + 1))).
      { induction n as [|n IH].
        - cbn [seq map]. unfold sumR, pol. cbn [fold_right INR Nat.add]. rewrite Rmult_1_l. fold e. ring.
        - rewrite seq_S, !map_app, !sumR_app, IH. cbn [map]. unfold sumR at 2 4. cbn [fold_right].
          replace (n + 1)%nat with (1 + n)%nat by lia. replace (1 + n + 1)%nat with (S n + 1)%nat by lia. ring. }
      rewrite G. replace (p - 1)%nat with (S (p - 2)) by lia. rewrite seq_S, map_app, sumR_app. cbn [map]. unfold sumR at 3. cbn [fold_right].
      replace (1 + (p - 2))%nat with (p - 2 + 1)%nat by lia.
      assert (P2 : sin (pol p (p - 2 + 1)) = sin e).
      { rewrite <- (sin_PI_x e). f_equal. pose proof (pol_full p Hp) as F. unfold pol. fold e in F |- *.
        replace (p - 2 + 1)%nat with (p - 1)%nat by lia. rewrite minus_INR by lia. cbn [INR]. lra. }
      rewrite P2. ring. }
    rewrite E. pose proof (sum_pol (p - 1)) as F. replace (p - 1 + 1)%nat with p in F by lia.
    assert (C1 : cos (pol p p) = -1) by (unfold pol; rewrite (pol_full p Hp); apply cos_PI).
    assert (C2 : cos (pol p (p - 1)) = - cos e).
    { replace (pol p (p - 1)) with (PI - e); [rewrite cos_minus, cos_PI, sin_PI; ring|].
      pose proof (pol_full p Hp) as G. unfold pol. fold e in G |- *. rewrite minus_INR by lia. cbn [INR]. lra. }
    rewrite C1, C2 in F. set (Q := sumR (map (fun i => sin (pol p i)) (seq 1 (p - 1)))) in *.
    replace (sumR [weight (TT 0); weight (TB 0)]) with (2 * sin e) by (unfold sumR; cbn; ring).
    transitivity (r * r * r * sin d * INR a * (2 * sin e * Q)); [ring|]. rewrite F. ring.
  Qed.
End Sphere.

(** ** Cone and cylinder *)
Section Round.
  Context (a : nat) (Ha : (3 <= a)%nat) (r len : R).
  Let d := 2 * PI / INR a.

  Lemma cone_solid6 : solid6 (kpos a r len) rzero (map (ktri a) (ktags a)) = INR a * sin d * (r * r) * len.
  Proof.
    unfold solid6. rewrite map_map. unfold ktags. rewrite map_app, sumR_app, !map_map.
    rewrite (sumR_const _ 0), (sumR_const _ (sin d * (r * r) * len)).
    - rewrite seq_length. ring.
    - intros j Hj. apply in_seq in Hj. unfold sixvol, cylindrical. cbn [ktri kpos]. unfold cylindrical.
      destruct (azi_nxt a j Ha ltac:(lia)) as [-> ->]. fold d. rewrite cos_plus, sin_plus.
      pose proof (sin2_cos2 (azi a j)) as K. unfold Rsqr in K. unfold rzero. cbn.
      set (c := cos (azi a j)) in *. set (s := sin (azi a j)) in *.
      transitivity (sin d * (r * r) * len * (s * s + c * c)); [ring|rewrite K; ring].
    - intros j _. unfold sixvol. cbn [ktri kpos]. unfold cylindrical, rzero. cbn. ring.
  Qed.

  Lemma cylinder_solid6 : solid6 (ypos a r len) rzero (map (ytri a) (ytags a)) = 3 * INR a * sin d * (r * r) * len.
  Proof.
    unfold solid6. rewrite map_map. unfold ytags. rewrite !map_app, !sumR_app, !map_map, sumR_flat. cbn [map].
    rewrite (sumR_const _ 0), (sumR_const _ (sin d * (r * r) * len)), (sumR_const _ (2 * sin d * (r * r) * len)).
    - rewrite seq_length. ring.
    - intros j Hj. apply in_seq in Hj. unfold sumR, sixvol. cbn [fold_right ytri ypos]. unfold cylindrical.
      destruct (azi_nxt a j Ha ltac:(lia)) as [-> ->]. fold d. rewrite cos_plus, sin_plus.
      pose proof (sin2_cos2 (azi a j)) as K. unfold Rsqr in K. unfold rzero. cbn.
      set (c := cos (azi a j)) in *. set (s := sin (azi a j)) in *.
      transitivity (2 * sin d * (r * r) * len * (s * s + c * c)); [ring|rewrite K; ring].
    - intros k Hk. apply in_seq in Hk. assert (Hj : (neg a k < a)%nat) by (apply neg_lt; lia). generalize dependent (neg a k). intros j Hj.
      unfold sixvol. cbn [ytri ypos]. unfold cylindrical.
      destruct (azi_prv a Ha j Hj) as [-> ->]. fold d. rewrite cos_minus, sin_minus.
      pose proof (sin2_cos2 (azi a j)) as K. unfold Rsqr in K. unfold rzero. cbn.
      set (c := cos (azi a j)) in *. set (s := sin (azi a j)) in *.
      transitivity (sin d * (r * r) * len * (s * s + c * c)); [ring|rewrite K; ring].
    - intros j _. unfold sixvol. cbn [ytri ypos]. unfold cylindrical, rzero. cbn. ring.
  Qed.
End Round.

Lemma cuboid_solid6 o x y z : solid6 (bpos o x y z) o btris = 6 * rdot (rcross x y) z.
Proof.
  unfold solid6, btris, sumR. cbn [map rev3 fold_right]. unfold bpos, bit. cbn [Nat.testbit Nat.odd Nat.even negb Nat.div2].
  unfold cuboid_point, sixvol. v3. cbn. ring.
Qed.

(** ** How close the volumes come to the curved shapes *)
Lemma sin_low x : 0 <= x <= 4 -> x - x * x * x / 6 <= sin x.
Proof.
  intros H. pose proof (pre_sin_bound x 0 (proj1 H) (proj2 H)) as [K _]. unfold sin_approx, sin_term in K. cbn in K. lra.
Qed.
Lemma cos_low x : -2 <= x <= 2 -> 1 - x * x / 2 <= cos x.
Proof.
  intros H. pose proof (pre_cos_bound x 0 (proj1 H) (proj2 H)) as [K _]. unfold cos_approx, cos_term in K. cbn in K. lra.
Qed.
Lemma PI_upper : PI < 3.6.
Proof.
  destruct (Rlt_le_dec PI 3.6) as [H|H]; [exact H|exfalso].
  pose proof (pre_cos_bound 1.8 0 ltac:(lra) ltac:(lra)) as [_ K]. unfold cos_approx, cos_term in K. cbn in K.
  pose proof (cos_ge_0 1.8 ltac:(lra) ltac:(lra)) as G. lra.
Qed.
Lemma ngon_bounds a : (3 <= a)%nat -> let d := 2 * PI / INR a in
  2 * PI * (1 - d * d / 6) <= INR a * sin d < 2 * PI /\ 0 < INR a * sin d /\ 0 < 1 - d * d / 6.
Proof.
  intros Ha. cbv zeta. pose proof (azi_step a Ha) as Hd. pose proof (azi_full a Ha) as F. pose proof (INR_a a Ha) as HI. pose proof PI_4 as P4.
  pose proof PI_RGT_0 as P0.
  set (d := 2 * PI / INR a) in *.
  pose proof (sin_low d ltac:(lra)) as L. pose proof (sin_lt_x d ltac:(lra)) as U. pose proof (sin_step a Ha) as S0. fold d in S0.
  assert (Hd3 : 3 * d <= 2 * PI) by (rewrite <- F; apply Rmult_le_compat_r; lra).
  repeat split.
  - apply Rle_trans with (INR a * (d - d * d * d / 6)); [right|apply Rmult_le_compat_l; lra].
    transitivity (INR a * d * (1 - d * d / 6)); [rewrite F; reflexivity|field].
  - rewrite <- F. apply Rmult_lt_compat_l; lra.
  - apply Rmult_lt_0_compat; lra.
  - pose proof PI_upper. nra.
Qed.
Lemma polar_bounds p : (2 <= p)%nat -> let e := PI / INR p in 2 - e * e / 2 <= 1 + cos e < 2 /\ 1 <= 1 + cos e /\ 0 < 2 - e * e / 2.
Proof.
  intros Hp. cbv zeta. pose proof (pol_step p Hp) as He. pose proof (pol_full p Hp) as F. pose proof (INR_p p Hp) as HI. pose proof PI_4 as P4.
  set (e := PI / INR p) in *.
  assert (He2 : 2 * e <= PI) by (rewrite <- F; apply Rmult_le_compat_r; lra).
  pose proof (cos_low e ltac:(lra)) as L.
  assert (U : cos e < 1) by (rewrite <- cos_0; apply cos_decreasing_1; lra).
  assert (G : 0 <= cos e) by (apply cos_ge_0; lra).
  pose proof PI_upper. repeat split; try lra. nra.
Qed.
