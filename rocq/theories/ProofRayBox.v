(** * Proofs about the ray / box intersection *)

From Coq Require Import Reals Lra Psatz List Bool Arith Lia.
From Verif Require Import Scalar Linal Result SpecReal VecR VecLemmas ModelShapes ModelBox SpecBox ModelRayBox SpecRayBox.
Local Open Scope R_scope.

Lemma tol_linal_X M e : 0 <= e -> LinalX (tol_linal (XS M) (Fin e)) e.
Proof.
  intros He; split; cbn; auto; unfold xleb; cbn; intros; rewrite ?orb_true_iff, ?negb_true_iff in *.
  - destruct H as [H|H]; [apply Rltb_true in H; lra|apply Reqb_true in H; lra].
  - rewrite Rabs_R0. destruct (Req_dec 0 e) as [E|E]; [right; now apply Reqb_true|left; apply Rltb_true; lra].
  - apply Rltb_true in H; lra.
  - apply Rltb_true; lra.
  - apply Rltb_true in H; lra.
  - apply Rltb_true; lra.
  - apply Rltb_false in H; lra.
  - apply Rltb_false; lra.
  - apply Rltb_false in H; lra.
  - apply Rltb_false; lra.
Qed.

Lemma raw_linal_X M e : 0 <= e -> LinalX (raw_linal (XS M) (Fin e)) e.
Proof.
  intros He; split; cbn; auto; unfold xleb; cbn; intros; rewrite ?orb_true_iff in *.
  - apply Reqb_true in H. subst. rewrite Rabs_R0. exact He.
  - now apply Reqb_true.
  - now apply Rltb_true.
  - apply Rltb_true; lra.
  - now apply Rltb_true.
  - apply Rltb_true; lra.
  - destruct H as [H|H]; [apply Rltb_true in H; lra|apply Reqb_true in H; lra].
  - destruct (Req_dec a b) as [E|E]; [right; now apply Reqb_true|left; apply Rltb_true; lra].
  - destruct H as [H|H]; [apply Rltb_true in H; lra|apply Reqb_true in H; lra].
  - destruct (Req_dec a b) as [E|E]; [right; now apply Reqb_true|left; apply Rltb_true; lra].
Qed.

(** ** lower and upper bounds among the extended reals *)
Definition low (a : xR) : Prop := match a with Fin _ | NInf => True | _ => False end.
Definition high (a : xR) : Prop := match a with Fin _ | PInf => True | _ => False end.
Definition lb (a : xR) (t : R) : Prop := match a with Fin x => x <= t | NInf => True | _ => False end.
Definition ub (a : xR) (t : R) : Prop := match a with Fin x => t <= x | PInf => True | _ => False end.
Definition isfin (a : xR) : Prop := match a with Fin _ => True | _ => False end.

Lemma max_low M (a b : XS M) : low a -> low b ->
  low (std_max a b) /\ (forall t, lb (std_max a b) t <-> lb a t /\ lb b t) /\
  (isfin a \/ isfin b -> isfin (std_max a b)).
Proof.
  intros Ha Hb. unfold std_max. cbn [sltb XS].
  destruct a as [x| | |]; cbn in Ha; try contradiction; destruct b as [y| | |]; cbn in Hb; try contradiction; cbn.
  - destruct (Rltb x y) eqn:E; cbn; [apply Rltb_true in E|apply Rltb_false in E]; (split; [exact I|]);
      (split; [intros t; lra|tauto]).
  - repeat split; tauto.
  - repeat split; tauto.
  - repeat split; tauto.
Qed.
Lemma min_high M (a b : XS M) : high a -> high b ->
  high (std_min a b) /\ (forall t, ub (std_min a b) t <-> ub a t /\ ub b t) /\
  (isfin a \/ isfin b -> isfin (std_min a b)).
Proof.
  intros Ha Hb. unfold std_min. cbn [sltb XS].
  destruct a as [x| | |]; cbn in Ha; try contradiction; destruct b as [y| | |]; cbn in Hb; try contradiction; cbn.
  - destruct (Rltb y x) eqn:E; cbn; [apply Rltb_true in E|apply Rltb_false in E]; (split; [exact I|]);
      (split; [intros t; lra|tauto]).
  - repeat split; tauto.
  - repeat split; tauto.
  - repeat split; tauto.
Qed.

Lemma all3 (P : nat -> Prop) : (forall i, (i < 3)%nat -> P i) <-> P 0%nat /\ P 1%nat /\ P 2%nat.
Proof.
  split; [intros H; repeat split; apply H; lia|].
  intros (H0 & H1 & H2) i Hi. destruct i as [|[|[|i]]]; auto; lia.
Qed.
Ltac by3 := unfold in_box, inside_box, near_box, clean_dir; apply all3; unfold comp, along; cbn.

Section RayBoxX.
  Context {M : R} {L : Linal (XS M)} {e : R} (HL : LinalX L e).

  (** one slab *)
  Lemma slab_spec (o d mn mx : R) : mn <= mx ->
    match slab_axis L (Fin o) (Fin d) (Fin mn) (Fin mx) with
    | None => Rabs d <= e /\ (o < mn \/ mx < o)
    | Some (l, h) =>
        low l /\ high h /\ (e < Rabs d -> isfin l /\ isfin h) /\
        ((Rabs d <= e /\ l = NInf /\ h = PInf /\ mn - e <= o <= mx + e) \/
         (d <> 0 /\ (forall t, (lb l t /\ ub h t) <-> mn <= o + t * d <= mx) /\
          forall t s, 0 <= s -> lb l (t + s) -> ub h (t - s) -> mn - s * Rabs d <= o + t * d <= mx + s * Rabs d))
    end.
  Proof.
    intros Hb. unfold slab_axis. destruct (isZero L (leps L) (Fin d)) eqn:Ez.
    - apply (lx_zero_1 _ _ HL) in Ez.
      destruct (isLess L (leps L) (Fin o) (Fin mn)) eqn:E1.
      { apply (lx_less_1 _ _ HL) in E1. cbn. split; [exact Ez|lra]. }
      destruct (isGreater L (leps L) (Fin o) (Fin mx)) eqn:E2.
      { apply (lx_greater_1 _ _ HL) in E2. cbn. split; [exact Ez|lra]. }
      cbn. split; [exact I|]. split; [exact I|]. split; [lra|]. left. split; [exact Ez|].
      split; [reflexivity|]. split; [reflexivity|]. split.
      + apply Rnot_lt_le. intros H. rewrite (lx_less_0 _ _ HL) in E1 by exact H. discriminate.
      + apply Rnot_lt_le. intros H. rewrite (lx_greater_0 _ _ HL) in E2 by exact H. discriminate.
    - assert (Hd : d <> 0) by (intros ->; rewrite (lx_zero_0 _ _ HL) in Ez; discriminate).
      unfold inv_component. rewrite Ez. cbn [sdiv s1 XS xdiv]. destruct (Req_EM_T d 0) as [H|_]; [contradiction|].
      unfold std_min, std_max. cbn.
      set (t1 := (mn - o) * (1 / d)). set (t2 := (mx - o) * (1 / d)).
      assert (E1 : t1 * d = mn - o) by (unfold t1; field; exact Hd).
      assert (E2 : t2 * d = mx - o) by (unfold t2; field; exact Hd).
      assert (Hcase : (0 < d /\ t1 <= t2) \/ (d < 0 /\ t2 <= t1)).
      { destruct (Rtotal_order d 0) as [Hn|[Hn|Hn]]; [right|contradiction|left]; (split; [exact Hn|]); nra. }
      destruct (Rltb t2 t1) eqn:E3; [apply Rltb_true in E3|apply Rltb_false in E3];
        (destruct (Rltb t1 t2) eqn:E4; [apply Rltb_true in E4|apply Rltb_false in E4]); cbn;
        (split; [exact I|]); (split; [exact I|]); (split; [tauto|]); right; (split; [exact Hd|]);
        (split; [intros t; nra|]); intros t s Hs H1 H2;
        (destruct Hcase as [[Hp Hc]|[Hp Hc]]; [rewrite Rabs_pos_eq by lra|rewrite Rabs_left by lra]); try nra.
  Qed.

  Lemma comp3 (v : vec R 3) : v = mk3 (comp 0 v) (comp 1 v) (comp 2 v).
  Proof. destruct v as [a [b [c []]]]. reflexivity. Qed.
  Lemma comp_along {n} i (o d : vec R n) t : (i < n)%nat -> comp i (along o d t) = comp i o + t * comp i d.
  Proof.
    unfold comp, along, radd, rscale. revert i. induction n as [|n IH]; intros i Hi; [lia|].
    destruct i as [|i]; [reflexivity|]. cbn. apply IH. lia.
  Qed.

  (** the slab interval, arbitrary direction *)
  Lemma interval_spec (o d mn mx : vec R 3) : 0 < M ->
    (forall i, (i < 3)%nat -> comp i mn <= comp i mx) ->
    (exists i, (i < 3)%nat /\ e < Rabs (comp i d)) ->
    exists a b, ray_interval L (mkRay (S := XS M) (finv o) (finv d)) (mkAABB (S := XS M) (finv mn) (finv mx)) = (Fin a, Fin b) /\
      (* complete *)
      (clean_dir e d -> forall t, in_box mn mx (along o d t) -> a <= t <= b) /\
      (a = M /\ b = - M \/
       (* sound *)
       (forall t s, 0 <= s -> a - s <= t <= b + s -> forall i, (i < 3)%nat ->
          comp i mn - s * Rabs (comp i d) <= comp i (along o d t) <= comp i mx + s * Rabs (comp i d) \/
          (Rabs (comp i d) <= e /\ comp i mn - e <= comp i o <= comp i mx + e)) /\
       (forall t, in_box mn mx (along o d t) -> a <= t <= b)).
  Proof.
    intros HM Hb (k & Hk & Hd).
    assert (Hs : forall i, (i < 3)%nat -> slab_axis L (Fin (comp i o)) (Fin (comp i d)) (Fin (comp i mn)) (Fin (comp i mx)) = None ->
      clean_dir e d -> forall t, ~ in_box mn mx (along o d t)).
    { intros i Hi E Hc t Ht. pose proof (slab_spec (comp i o) (comp i d) _ _ (Hb i Hi)) as H. rewrite E in H.
      destruct H as [H1 H2]. destruct (Hc i Hi) as [H3|H3]; [|lra].
      specialize (Ht i Hi). rewrite comp_along in Ht by exact Hi. rewrite H3 in Ht. lra. }
    rewrite (comp3 o), (comp3 d), (comp3 mn), (comp3 mx). unfold ray_interval. cbn [r_origin r_dir a_min a_max finv mk3 vmap fst snd].
    rewrite <- (comp3 o), <- (comp3 d), <- (comp3 mn), <- (comp3 mx).
    pose proof (slab_spec (comp 0 o) (comp 0 d) _ _ (Hb 0%nat ltac:(lia))) as S0.
    pose proof (slab_spec (comp 1 o) (comp 1 d) _ _ (Hb 1%nat ltac:(lia))) as S1.
    pose proof (slab_spec (comp 2 o) (comp 2 d) _ _ (Hb 2%nat ltac:(lia))) as S2.
    assert (Hnone : forall i, (i < 3)%nat ->
      slab_axis L (Fin (comp i o)) (Fin (comp i d)) (Fin (comp i mn)) (Fin (comp i mx)) = None ->
      exists a b, (Fin M, Fin (- M)) = (Fin a, Fin b) /\
      (clean_dir e d -> forall t, in_box mn mx (along o d t) -> a <= t <= b) /\
      (a = M /\ b = - M \/
       (forall t s, 0 <= s -> a - s <= t <= b + s -> forall i, (i < 3)%nat ->
          comp i mn - s * Rabs (comp i d) <= comp i (along o d t) <= comp i mx + s * Rabs (comp i d) \/
          (Rabs (comp i d) <= e /\ comp i mn - e <= comp i o <= comp i mx + e)) /\
       (forall t, in_box mn mx (along o d t) -> a <= t <= b))).
    { intros i Hi E. exists M, (- M). split; [reflexivity|]. split; [|now left].
      intros Hc t Ht. exfalso. exact (Hs i Hi E Hc t Ht). }
    destruct (slab_axis L (Fin (comp 0 o)) _ _ _) as [[l0 h0]|] eqn:E0; [|apply (Hnone 0%nat); [lia|exact E0]].
    destruct (slab_axis L (Fin (comp 1 o)) _ _ _) as [[l1 h1]|] eqn:E1; [|apply (Hnone 1%nat); [lia|exact E1]].
    destruct (slab_axis L (Fin (comp 2 o)) _ _ _) as [[l2 h2]|] eqn:E2; [|apply (Hnone 2%nat); [lia|exact E2]].
    destruct S0 as (L0 & H0 & F0 & C0), S1 as (L1 & H1 & F1 & C1), S2 as (L2 & H2 & F2 & C2).
    destruct (max_low M l1 l2 L1 L2) as (La & Lb & Lc). destruct (max_low M l0 _ L0 La) as (Ma & Mb & Mc).
    destruct (min_high M h1 h2 H1 H2) as (Ha & Hb' & Hc). destruct (min_high M h0 _ H0 Ha) as (Na & Nb & Nc).
    assert (Ff : isfin (std_max l0 (std_max l1 l2)) /\ isfin (std_min h0 (std_min h1 h2))).
    { destruct k as [|[|[|k]]]; [| | |lia].
      - destruct (F0 Hd). split; [apply Mc|apply Nc]; auto.
      - destruct (F1 Hd). split; [apply Mc|apply Nc]; right; [apply Lc|apply Hc]; auto.
      - destruct (F2 Hd). split; [apply Mc|apply Nc]; right; [apply Lc|apply Hc]; auto. }
    set (lo := std_max l0 _) in *. set (hi := std_min h0 _) in *.
    destruct Ff as [Fl Fh].
    destruct lo as [a| | |]; cbn in Fl; try contradiction. destruct hi as [b| | |]; cbn in Fh; try contradiction.
    exists a, b. split; [reflexivity|].
    assert (Hall : forall t, a <= t <= b <-> (lb l0 t /\ ub h0 t) /\ (lb l1 t /\ ub h1 t) /\ (lb l2 t /\ ub h2 t)).
    { intros t. specialize (Mb t). specialize (Lb t). specialize (Nb t). specialize (Hb' t). cbn in Mb, Nb. tauto. }
    assert (Hall' : forall t s, a - s <= t <= b + s ->
      (lb l0 (t + s) /\ ub h0 (t - s)) /\ (lb l1 (t + s) /\ ub h1 (t - s)) /\ (lb l2 (t + s) /\ ub h2 (t - s))).
    { intros t s Ht. pose proof (Mb (t + s)) as Mb1. pose proof (Lb (t + s)) as Lb1. pose proof (Nb (t - s)) as Nb1. pose proof (Hb' (t - s)) as Hb1.
      cbn in Mb1, Nb1. assert (a <= t + s) by lra. assert (t - s <= b) by lra. tauto. }
    assert (Hax : forall i l h t, (i < 3)%nat ->
       (Rabs (comp i d) <= e /\ l = NInf /\ h = PInf /\ comp i mn - e <= comp i o <= comp i mx + e) \/
       (comp i d <> 0 /\ (forall t, (lb l t /\ ub h t) <-> comp i mn <= comp i o + t * comp i d <= comp i mx) /\
         forall t s, 0 <= s -> lb l (t + s) -> ub h (t - s) ->
           comp i mn - s * Rabs (comp i d) <= comp i o + t * comp i d <= comp i mx + s * Rabs (comp i d)) ->
       (forall s, 0 <= s -> lb l (t + s) /\ ub h (t - s) ->
          comp i mn - s * Rabs (comp i d) <= comp i (along o d t) <= comp i mx + s * Rabs (comp i d) \/
          (Rabs (comp i d) <= e /\ comp i mn - e <= comp i o <= comp i mx + e)) /\
       (comp i mn <= comp i (along o d t) <= comp i mx -> lb l t /\ ub h t)).
    { intros i l h t Hi. rewrite comp_along by exact Hi. intros [(A1 & -> & -> & A2)|(A1 & A2 & A3)].
      - split; [intros; right; auto|intros _; cbn; auto].
      - split; [intros s Hs0 [H3 H4]; left; apply A3; auto|intros H; now apply A2]. }
    assert (Hin : forall t, in_box mn mx (along o d t) -> a <= t <= b).
    { intros t Ht. apply Hall. split; [|split].
      - apply (Hax 0%nat l0 h0 t ltac:(lia) C0), Ht. lia.
      - apply (Hax 1%nat l1 h1 t ltac:(lia) C1), Ht. lia.
      - apply (Hax 2%nat l2 h2 t ltac:(lia) C2), Ht. lia. }
    split; [auto|]. right. split; [|exact Hin].
    intros t s Hs0 Ht. apply Hall' in Ht as (T0 & T1 & T2). apply all3. split; [|split].
    - apply (Hax 0%nat l0 h0 t ltac:(lia) C0); assumption.
    - apply (Hax 1%nat l1 h1 t ltac:(lia) C1); assumption.
    - apply (Hax 2%nat l2 h2 t ltac:(lia) C2); assumption.
  Qed.

  Lemma finv_along {n} (o d : vec R n) t : vadd (S := XS M) (finv o) (vscale (S := XS M) (Fin t) (finv d)) = finv (along o d t).
  Proof. unfold finv, along, vadd, vscale, radd, rscale. induction n as [|n IH]; [reflexivity|]. cbn. f_equal. apply IH. Qed.

  Definition xray (o d : vec R 3) : ray (XS M) 3 := mkRay (S := XS M) (finv o) (finv d).
  Definition xbox (mn mx : vec R 3) : aabb (XS M) 3 := mkAABB (S := XS M) (finv mn) (finv mx).

  Lemma clean_big (d : vec R 3) : clean_dir e d -> d <> rzero -> exists i, (i < 3)%nat /\ e < Rabs (comp i d).
  Proof.
    intros Hc Hd. destruct (Hc 0%nat) as [H0|H0]; [lia| |now exists 0%nat; split; [lia|]].
    destruct (Hc 1%nat) as [H1|H1]; [lia| |now exists 1%nat; split; [lia|]].
    destruct (Hc 2%nat) as [H2|H2]; [lia| |now exists 2%nat; split; [lia|]].
    exfalso. apply Hd. rewrite (comp3 d), H0, H1, H2. reflexivity.
  Qed.

  Lemma ray_box_complete (o d mn mx : vec R 3) t : 0 < M -> d <> rzero -> clean_dir e d ->
    0 <= t -> in_box mn mx (along o d t) -> ray_box_is_intersecting L (xray o d) (xbox mn mx) = true.
  Proof.
    intros HM Hd Hc Ht Hin.
    assert (Hb : forall i, (i < 3)%nat -> comp i mn <= comp i mx) by (intros i Hi; specialize (Hin i Hi); lra).
    destruct (interval_spec o d mn mx HM Hb (clean_big d Hc Hd)) as (a & b & E & H & _).
    unfold ray_box_is_intersecting, xray, xbox. rewrite E. specialize (H Hc t Hin).
    cbn [s0 XS]. rewrite (lx_lesseq_0 _ _ HL), (lx_greatereq_0 _ _ HL) by lra. reflexivity.
  Qed.

  Lemma ray_box_sound (o d mn mx : vec R 3) : 0 < M -> e < 2 * M ->
    (forall i, (i < 3)%nat -> comp i mn <= comp i mx) ->
    (forall i, (i < 3)%nat -> Rabs (comp i d) <= 1) -> (exists i, (i < 3)%nat /\ e < Rabs (comp i d)) ->
    ray_box_is_intersecting L (xray o d) (xbox mn mx) = true ->
    exists t, 0 <= t /\ near_box (e * (1 + t)) mn mx (along o d t) /\
      (clean_dir e d -> near_box e mn mx (along o d t)).
  Proof.
    intros HM HeM Hb H1 Hd Hi. pose proof (lx_eps_pos _ _ HL) as He.
    destruct (interval_spec o d mn mx HM Hb Hd) as (a & b & E & _ & H).
    unfold ray_box_is_intersecting, xray, xbox in Hi. rewrite E in Hi. apply andb_prop in Hi as [I1 I2].
    apply (lx_lesseq_1 _ _ HL) in I1. apply (lx_greatereq_1 _ _ HL) in I2.
    destruct H as [[-> ->]|[Hs _]]; [lra|].
    assert (Ht0 : 0 <= b + e) by lra.
    exists (b + e). split; [exact Ht0|].
    assert (Hax := Hs (b + e) e He ltac:(lra)). split.
    - intros i Hi. specialize (Hax i Hi). specialize (H1 i Hi). pose proof (Rabs_pos (comp i d)) as Hp.
      assert (e * Rabs (comp i d) <= e) by nra. assert (0 <= e * (b + e)) by (apply Rmult_le_pos; assumption).
      destruct Hax as [Hax|[Hax1 Hax2]]; [lra|]. rewrite comp_along by exact Hi.
      assert (Hz : Rabs ((b + e) * comp i d) <= e * (b + e)).
      { rewrite Rabs_mult, (Rabs_pos_eq (b + e)), Rmult_comm by exact Ht0. apply Rmult_le_compat_r; assumption. }
      apply abs_le_inv in Hz. lra.
    - intros Hc i Hi. specialize (Hax i Hi). specialize (H1 i Hi). pose proof (Rabs_pos (comp i d)) as Hp.
      assert (e * Rabs (comp i d) <= e) by nra.
      destruct Hax as [Hax|[Hax1 Hax2]]; [lra|]. rewrite comp_along by exact Hi.
      destruct (Hc i Hi) as [Hz|Hz]; [rewrite Hz; lra|lra].
  Qed.

  Lemma ray_box_points fill dbg (o d mn mx : vec R 3) : 0 < M -> e < 2 * M ->
    (forall i, (i < 3)%nat -> comp i mn <= comp i mx) -> d <> rzero -> clean_dir e d ->
    exists h a b, ray_box_intersect L fill dbg (xray o d) (xbox mn mx) = Ok h /\
      (* the entry point *)
      (h_has_enter h = true ->
         h_enter h = finv (along o d a) /\ - e <= a < b /\ near_box e mn mx (along o d a) /\
         forall t, in_box mn mx (along o d t) -> a <= t) /\
      (* the exit point *)
      (h_has_exit h = true ->
         h_exit h = finv (along o d b) /\ - e <= b /\ a < b /\ near_box e mn mx (along o d b) /\
         forall t, in_box mn mx (along o d t) -> t <= b) /\
      (* nothing is missed *)
      (forall t1 t2, in_box mn mx (along o d t1) -> in_box mn mx (along o d t2) -> e < t2 - t1 -> 0 <= t2 ->
         h_has_exit h = true /\
         ((forall t, t < 0 -> ~ near_box e mn mx (along o d t)) -> h_has_enter h = true) /\
         (t1 < - e -> h_has_enter h = false)) /\
      ((forall t, - e <= t -> ~ near_box e mn mx (along o d t)) -> hits_bool h = false).
  Proof.
    intros HM HeM Hb Hd Hc. pose proof (lx_eps_pos _ _ HL) as He.
    destruct (interval_spec o d mn mx HM Hb (clean_big d Hc Hd)) as (a & b & E & Hin & H).
    specialize (Hin Hc).
    assert (Hs : a < b -> forall t, a <= t <= b -> near_box e mn mx (along o d t)).
    { intros Hab t Ht. destruct H as [[-> ->]|[H _]]; [lra|].
      intros i Hi. destruct (H t 0 (Rle_refl 0) ltac:(lra) i Hi) as [Hx|[Hx1 Hx2]]; [rewrite Rmult_0_l in Hx; lra|].
      rewrite comp_along by exact Hi. destruct (Hc i Hi) as [Hz|Hz]; [rewrite Hz; lra|lra]. }
    unfold ray_box_intersect. fold (xray o d) in E. fold (xbox mn mx) in E. rewrite E.
    destruct (isGreaterEq L (leps L) (Fin a) (Fin b)) eqn:E1.
    { exists (hits_default fill), a, b. split; [reflexivity|]. cbn. split; [discriminate|]. split; [discriminate|].
      apply (lx_greatereq_1 _ _ HL) in E1. split.
      - intros t1 t2 I1 I2 Hlt _. pose proof (Hin _ I1). pose proof (Hin _ I2). lra.
      - auto. }
    assert (Hab : a < b).
    { apply Rnot_le_lt. intros Hle. rewrite (lx_greatereq_0 _ _ HL) in E1 by exact Hle. discriminate. }
    cbn [s0 XS]. unfold ordinate_to_point. cbn [s0 XS].
    assert (Hpt : forall t, vadd (r_origin (xray o d)) (vscale (S := XS M) (Fin t) (r_dir (xray o d))) = finv (along o d t))
      by (intros t; apply finv_along).
    rewrite !Hpt. clear Hpt.
    destruct (isGreaterEq L (leps L) (Fin a) (Fin 0)) eqn:E2; destruct (isGreaterEq L (leps L) (Fin b) (Fin 0)) eqn:E3;
      rewrite ?geo_assert_true by exact eq_refl; cbn [bind]; eexists; exists a, b; (split; [reflexivity|]);
      cbn [set_enter set_exit hits_default h_has_enter h_has_exit h_enter h_exit hits_bool orb];
      try (apply (lx_greatereq_1 _ _ HL) in E2; rename E2 into Ha);
      try (apply (lx_greatereq_1 _ _ HL) in E3; rename E3 into Hbb).
    all: try (split; [intros _; split; [reflexivity|]; split; [lra|]; split; [apply Hs; lra|intros t It; apply Hin in It; lra]
                     |]; idtac).
    all: try (split; [discriminate|]).
    all: try (split; [intros _; split; [reflexivity|]; split; [lra|]; split; [exact Hab|]; split; [apply Hs; lra|intros t It; apply Hin in It; lra]
                     |]; idtac).
    all: try (split; [discriminate|]).
    all: split; [intros t1 t2 I1 I2 Hlt Ht2; pose proof (Hin _ I1) as J1; pose proof (Hin _ I2) as J2|].
    all: try (assert (Hb0 : 0 <= b) by lra; rewrite (lx_greatereq_0 _ _ HL) in E3 by exact Hb0; discriminate).
    - split; [reflexivity|]. split; [reflexivity|]. intros Ht1. lra.
    - intros Hno. exfalso. apply (Hno b); [lra|]. apply Hs; lra.
    - intros Hno. exfalso. apply (Hno a); [lra|]. apply Hs; lra.
    - split; [reflexivity|]. split; [|reflexivity]. intros Hno. exfalso. apply (Hno a); [|apply Hs; lra].
      apply Rnot_le_lt. intros Ha. rewrite (lx_greatereq_0 _ _ HL) in E2 by exact Ha. discriminate.
    - intros Hno. exfalso. apply (Hno b); [lra|]. apply Hs; lra.
    - reflexivity.
  Qed.

  Lemma touching : 0 < M -> e < 3 / 5 -> forall fill dbg,
    let o := mk3 (-3) (-3) (/ 2) in
    let d := mk3 (3 / 5) (4 / 5) 0 in
    let mn := mk3 0 0 0 in
    let mx := mk3 1 1 1 in
    rnorm d = 1 /\ in_box mn mx (along o d 5) /\
    ray_box_is_intersecting L (xray o d) (xbox mn mx) = true /\
    exists h, ray_box_intersect L fill dbg (xray o d) (xbox mn mx) = Ok h /\ hits_bool h = false.
  Proof.
    intros HM He fill dbg o d mn mx. pose proof (lx_eps_pos _ _ HL) as He0.
    assert (Hn : rnorm d = 1).
    { apply sq_eq; [apply rnorm_nonneg|lra|]. rewrite rnorm_sq. cbn. field. }
    assert (Hin : in_box mn mx (along o d 5)).
    { by3. lra. }
    assert (Hc : clean_dir e d).
    { by3. rewrite !Rabs_pos_eq by lra. lra. }
    assert (Hd : d <> rzero) by (intros E; apply (f_equal fst) in E; cbn in E; lra).
    assert (Hb : forall i, (i < 3)%nat -> comp i mn <= comp i mx) by (intros i Hi; specialize (Hin i Hi); lra).
    split; [exact Hn|]. split; [exact Hin|]. split; [apply (ray_box_complete o d mn mx 5); auto; lra|].
    destruct (interval_spec o d mn mx HM Hb (clean_big d Hc Hd)) as (a & b & E & H & Hs).
    exists (hits_default fill). split; [|reflexivity].
    unfold ray_box_intersect, xray, xbox. rewrite E. specialize (H Hc 5 Hin).
    rewrite (lx_greatereq_0 _ _ HL); [reflexivity|].
    destruct Hs as [[-> ->]|[Hs _]]; [lra|].
    destruct (Hs a 0 (Rle_refl 0) ltac:(lra) 0%nat ltac:(lia)) as [K|[K _]];
      [|unfold comp in K; cbn in K; rewrite Rabs_pos_eq in K by lra; lra].
    destruct (Hs b 0 (Rle_refl 0) ltac:(lra) 1%nat ltac:(lia)) as [K'|[K' _]];
      [|unfold comp in K'; cbn in K'; rewrite Rabs_pos_eq in K' by lra; lra].
    rewrite Rmult_0_l in K, K'. unfold comp, along in K, K'. cbn in K, K'. lra.
  Qed.

  Lemma nearly_parallel : 0 < M -> e < 2 * M -> e < 3 -> forall x, 0 < x < 1 -> isZero L (leps L) (Fin x) = true ->
    let o := mk3 0 0 0 in
    let d := mk3 (sqrt (1 - x * x)) x 0 in
    let mn := mk3 (4 / x * sqrt (1 - x * x) - 1) 3 (-1) in
    let mx := mk3 (4 / x * sqrt (1 - x * x) + 1) 5 1 in
    rnorm d = 1 /\ inside_box mn mx (along o d (4 / x)) /\
    ray_box_is_intersecting L (xray o d) (xbox mn mx) = false.
  Proof.
    intros HM HeM He3 x Hx Hz o d mn mx. split; [|split].
    - apply sq_eq; [apply rnorm_nonneg|lra|]. rewrite rnorm_sq. cbn. rewrite <- Rplus_assoc.
      rewrite (sqrt_sqrt (1 - x * x)) by nra. ring.
    - by3. replace (4 / x * x) with 4 by (field; lra). lra.
    - assert (E : ray_interval L (xray o d) (xbox mn mx) = (Fin M, Fin (- M))).
      { unfold ray_interval, xray, xbox. cbn [r_origin r_dir a_min a_max finv mk3 vmap fst snd o d mn mx].
        destruct (slab_axis L (Fin 0) (Fin (sqrt (1 - x * x))) _ _) as [[l0 h0]|]; [|reflexivity].
        assert (E1 : slab_axis L (Fin 0) (Fin x) (Fin 3) (Fin 5) = None).
        { unfold slab_axis. rewrite Hz, (lx_less_0 _ _ HL) by lra. reflexivity. }
        rewrite E1. reflexivity. }
      unfold ray_box_is_intersecting. rewrite E.
      destruct (isLessEq L (leps L) (Fin M) (Fin (- M))) eqn:E1; [|reflexivity].
      apply (lx_lesseq_1 _ _ HL) in E1. lra.
  Qed.
End RayBoxX.

Lemma ray_box_example :
  let o := mk3 (-2) (/ 2) (/ 2) in
  let d := mk3 1 0 0 in
  let mn := mk3 0 0 0 in
  let mx := mk3 1 1 1 in
  let L := tol_linal (XS 100) (Fin (/ 10)) in
  ray_box_is_intersecting L (xray o d) (xbox mn mx) = true /\
  exists h, ray_box_intersect L true true (xray o d) (xbox mn mx) = Ok h /\
    h_has_enter h = true /\ h_enter h = finv (mk3 0 (/ 2) (/ 2)) /\
    h_has_exit h = true /\ h_exit h = finv (mk3 1 (/ 2) (/ 2)).
Proof.
  intros o d mn mx L. assert (HL : LinalX L (/ 10)) by (apply tol_linal_X; lra).
  assert (Hc : clean_dir (/ 10) d).
  { by3. rewrite Rabs_pos_eq by lra. lra. }
  assert (Hd : d <> rzero) by (intros E; apply (f_equal fst) in E; cbn in E; lra).
  assert (H2 : in_box mn mx (along o d 2)) by (by3; lra).
  assert (H3 : in_box mn mx (along o d 3)) by (by3; lra).
  assert (Hb : forall i, (i < 3)%nat -> comp i mn <= comp i mx) by (intros i Hi; specialize (H2 i Hi); lra).
  split; [apply (ray_box_complete HL o d mn mx 2); auto; lra|].
  assert (E : ray_interval L (xray o d) (xbox mn mx) = (Fin 2, Fin 3)).
  { unfold ray_interval. cbn. unfold slab_axis, inv_component. cbn. unfold xleb. cbn.
    rewrite (Rabs_pos_eq 1), Rabs_R0 by lra.
    rewrite (proj2 (Rltb_false 1 (/ 10))), (proj2 (Reqb_false 1 (/ 10))), (proj2 (Rltb_true 0 (/ 10))) by lra.
    rewrite (proj2 (Rltb_false (/ 10) (0 - / 2))), (proj2 (Rltb_false (/ 10) (/ 2 - 1))) by lra. cbn.
    destruct (Req_EM_T 1 0); [lra|]. unfold std_min, std_max. cbn.
    rewrite (proj2 (Rltb_false _ _)) by lra. rewrite (proj2 (Rltb_true _ _)) by lra. cbn. f_equal; f_equal; field. }
  unfold ray_box_intersect, ordinate_to_point. rewrite E. cbn.
  rewrite (proj2 (Rltb_true (/ 10) (3 - 2))) by lra. cbn.
  rewrite !(proj2 (Rltb_false (/ 10) (0 - _))) by lra. cbn.
  eexists. split; [reflexivity|]. cbn. split; [reflexivity|]. split; [|split; [reflexivity|]];
    unfold finv, mk3; cbn; repeat (apply f_equal2; [f_equal; field|]); reflexivity.
Qed.
