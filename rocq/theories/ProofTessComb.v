(** * Combinatorics of the tessellations *)

From Coq Require Import List Arith Bool Lia Permutation FinFun.
From Verif Require Import Scalar Linal Result ModelShapes ModelMesh SpecMesh SpecTess ModelTess.
Import ListNotations.
Local Open Scope nat_scope.

(** ** Lists *)

Lemma NoDup_app_intro {A} (l r : list A) :
  NoDup l -> NoDup r -> (forall x, In x l -> In x r -> False) -> NoDup (l ++ r).
Proof.
  intros Hl Hr. induction Hl as [|x l Hx Hl IH]; intros H; [exact Hr|]. cbn. constructor.
  - rewrite in_app_iff. intros [|]; [auto|]. apply (H x); [left; reflexivity|assumption].
  - apply IH. intros y Hy. apply H. right. exact Hy.
Qed.

Lemma NoDup_flat_map_intro {A B} (f : A -> list B) (l : list A) :
  NoDup l -> (forall x, In x l -> NoDup (f x)) ->
  (forall x y e, In x l -> In y l -> In e (f x) -> In e (f y) -> x = y) -> NoDup (flat_map f l).
Proof.
  intros Hl. induction Hl as [|x l Hx Hl IH]; intros H1 H2; [constructor|]. cbn.
  apply NoDup_app_intro.
  - apply H1. left; reflexivity.
  - apply IH; [intros; apply H1; right; assumption|]. intros y z e Hy Hz. apply H2; right; assumption.
  - intros e He Hf. apply in_flat_map in Hf as (y & Hy & He'). assert (x = y); [|subst; contradiction].
    apply (H2 x y e); [left; reflexivity|right; exact Hy|exact He|exact He'].
Qed.

Lemma flat_map_ext_in {A B} (f g : A -> list B) (l : list A) :
  (forall x, In x l -> f x = g x) -> flat_map f l = flat_map g l.
Proof.
  induction l as [|x l IH]; intros H; [reflexivity|]. cbn. rewrite (H x (or_introl eq_refl)).
  rewrite IH; [reflexivity|]. intros; apply H; right; assumption.
Qed.

Lemma flat_map_flat_map {A B C} (f : A -> list B) (g : B -> list C) (l : list A) :
  flat_map g (flat_map f l) = flat_map (fun x => flat_map g (f x)) l.
Proof. induction l as [|x l IH]; [reflexivity|]. cbn. rewrite flat_map_app, IH. reflexivity. Qed.

Lemma flat_map_map {A B C} (f : A -> B) (g : B -> list C) (l : list A) :
  flat_map g (map f l) = flat_map (fun x => g (f x)) l.
Proof. induction l as [|x l IH]; [reflexivity|]. cbn. rewrite IH. reflexivity. Qed.

Lemma map_flat_map {A B C} (f : A -> list B) (g : B -> C) (l : list A) :
  map g (flat_map f l) = flat_map (fun x => map g (f x)) l.
Proof. induction l as [|x l IH]; [reflexivity|]. cbn. rewrite map_app, IH. reflexivity. Qed.

Lemma flat_map_length_const {A B} (f : A -> list B) k (l : list A) :
  (forall x, In x l -> length (f x) = k) -> length (flat_map f l) = k * length l.
Proof.
  induction l as [|x l IH]; intros H; cbn; [lia|]. rewrite app_length, IH, (H x); [lia|left; reflexivity|].
  intros; apply H; right; assumption.
Qed.

(** ** Index buffers *)

Definition flat3 {A} (l : list (A * A * A)) : list A := flat_map (fun t => let '(x, y, z) := t in [x; y; z]) l.

Lemma triples_flat3 {A} (l : list (A * A * A)) : triples (flat3 l) = l.
Proof. induction l as [|[[x y] z] l IH]; [reflexivity|]. cbn. f_equal. exact IH. Qed.
Lemma flat3_app {A} (l r : list (A * A * A)) : flat3 (l ++ r) = flat3 l ++ flat3 r.
Proof. apply flat_map_app. Qed.
Lemma flat3_flat_map {A B} (f : B -> list (A * A * A)) l : flat3 (flat_map f l) = flat_map (fun x => flat3 (f x)) l.
Proof. apply flat_map_flat_map. Qed.
Lemma flat3_length {A} (l : list (A * A * A)) : length (flat3 l) = 3 * length l.
Proof. apply flat_map_length_const. intros [[x y] z] _. reflexivity. Qed.
Lemma flat3_In {A} (l : list (A * A * A)) x :
  In x (flat3 l) <-> exists a b c, In (a, b, c) l /\ (x = a \/ x = b \/ x = c).
Proof.
  unfold flat3. rewrite in_flat_map. split.
  - intros ([[a b] c] & H & Hx). exists a, b, c. split; [exact H|]. cbn in Hx. intuition auto.
  - intros (a & b & c & H & Hx). exists (a, b, c). split; [exact H|]. cbn. intuition auto.
Qed.

Definition map3 {A B} (f : A -> B) (t : A * A * A) : B * B * B := let '(x, y, z) := t in (f x, f y, f z).

Lemma edges3_map3 {A B} (f : A -> B) t : edges3 (map3 f t) = map (fun e => (f (fst e), f (snd e))) (edges3 t).
Proof. destruct t as [[x y] z]. reflexivity. Qed.
Lemma edges_map3 {A B} (f : A -> B) ts :
  flat_map edges3 (map (map3 f) ts) = map (fun e => (f (fst e), f (snd e))) (flat_map edges3 ts).
Proof. induction ts as [|t ts IH]; [reflexivity|]. cbn. rewrite map_app, IH, edges3_map3. reflexivity. Qed.

(** the triangle read in the opposite order *)
Definition rev3 {A} (t : A * A * A) : A * A * A := let '(x, y, z) := t in (z, y, x).

(** ** Closed oriented edge lists *)

Lemma closed_map {A B} (f : A -> B) (es : list (A * A)) :
  (forall u v u' v', In (u, v) es -> In (u', v') es -> f u = f u' -> u = u') ->
  closed_oriented es -> closed_oriented (map (fun e => (f (fst e), f (snd e))) es).
Proof.
  intros Hf [Hn Hc]. split.
  - assert (Hf2 : forall e e', In e es -> In e' es -> (f (fst e), f (snd e)) = (f (fst e'), f (snd e')) -> e = e').
    { intros [u v] [u' v'] H1 H2 E. cbn in E. injection E as E1 E2. f_equal.
      - apply (Hf u v u' v'); assumption.
      - apply (Hf v u v' u'); [apply Hc|apply Hc|]; assumption. }
    clear Hc Hf. induction Hn as [|e es He Hn IH]; [constructor|]. cbn. constructor.
    + intros H. apply in_map_iff in H as (e' & E & H'). assert (e = e'); [|subst; contradiction].
      apply Hf2; [left; reflexivity|right; exact H'|symmetry; exact E].
    + apply IH. intros x y Hx Hy. apply Hf2; right; assumption.
  - intros u v H. apply in_map_iff in H as ([x y] & E & H). cbn in E. injection E as <- <-.
    destruct (Hc x y H) as [H1 H2]. split.
    + intros E. apply H1. apply (Hf x y y x); assumption.
    + apply in_map_iff. exists (y, x). auto.
Qed.

Lemma closed_rev {A} (es : list (A * A)) :
  closed_oriented es -> closed_oriented (map (fun e => (snd e, fst e)) es).
Proof.
  intros [Hn Hc]. split.
  - apply FinFun.Injective_map_NoDup; [|exact Hn]. intros [a b] [c d] E. cbn in E. congruence.
  - intros u v H. apply in_map_iff in H as ([x y] & E & H). cbn in E. injection E as <- <-.
    destruct (Hc x y H) as [H1 H2]. split; [congruence|]. apply in_map_iff. exists (y, x). auto.
Qed.

(** the edge list of [rev3] is a permutation of the reversed edges; being closed
    only depends on the elements and on having no repetition *)
Lemma closed_perm {A} (es fs : list (A * A)) : Permutation.Permutation es fs -> closed_oriented es -> closed_oriented fs.
Proof.
  intros HP [Hn Hc]. split; [exact (Permutation.Permutation_NoDup HP Hn)|].
  intros u v H. apply (Permutation.Permutation_in _ (Permutation.Permutation_sym HP)) in H.
  destruct (Hc u v H) as [H1 H2]. split; [exact H1|]. exact (Permutation.Permutation_in _ HP H2).
Qed.

Lemma edges_rev3_perm {A} (ts : list (A * A * A)) :
  Permutation.Permutation (map (fun e => (snd e, fst e)) (flat_map edges3 ts)) (flat_map edges3 (map rev3 ts)).
Proof.
  induction ts as [|[[x y] z] ts IH]; [constructor|]. cbn [flat_map map rev3 edges3]. rewrite map_app.
  apply Permutation.Permutation_app; [|exact IH]. cbn.
  (* (y,x) (z,y) (x,z)  ->  (z,y) (y,x) (x,z) *)
  apply Permutation.perm_swap.
Qed.

Lemma closed_rev3 {A} (ts : list (A * A * A)) :
  closed_oriented (flat_map edges3 ts) -> closed_oriented (flat_map edges3 (map rev3 ts)).
Proof. intros H. apply (closed_perm _ _ (edges_rev3_perm ts)), closed_rev, H. Qed.

(** a surface given by a duplicate free list of triangle tags *)
Lemma closed_by_tags {T V} (tags : list T) (tri : T -> V * V * V) :
  NoDup tags ->
  (forall t t' e, In t tags -> In t' tags -> In e (edges3 (tri t)) -> In e (edges3 (tri t')) -> t = t') ->
  (forall t u v, In t tags -> In (u, v) (edges3 (tri t)) ->
     u <> v /\ exists t', In t' tags /\ In (v, u) (edges3 (tri t'))) ->
  closed_oriented (flat_map edges3 (map tri tags)).
Proof.
  intros Hn Hi Hc. rewrite flat_map_map. split.
  - apply NoDup_flat_map_intro; [exact Hn| |exact Hi].
    intros t Ht. assert (K : forall u v, In (u, v) (edges3 (tri t)) -> u <> v) by (intros u v H; apply (Hc t u v Ht H)).
    destruct (tri t) as [[x y] z]. cbn in K |- *.
    assert (x <> y) by (apply K; auto). assert (y <> z) by (apply K; auto). assert (z <> x) by (apply K; auto).
    repeat constructor; cbn; intuition congruence.
  - intros u v H. apply in_flat_map in H as (t & Ht & H). destruct (Hc t u v Ht H) as (H1 & t' & Ht' & H2).
    split; [exact H1|]. apply in_flat_map. exists t'. auto.
Qed.

(** number of undirected edges of a closed oriented edge list *)
Lemma closed_edge_pairs (es : list (nat * nat)) :
  closed_oriented es -> length es = 2 * length (edge_pairs es).
Proof.
  intros [Hn Hc]. unfold edge_pairs.
  set (p := fun e : nat * nat => fst e <? snd e). set (q := fun e : nat * nat => negb (p e)).
  assert (E : length es = length (filter p es) + length (filter q es)).
  { clear. clearbody p. induction es as [|e es IH]; [reflexivity|]. subst q. cbn [filter]. destruct (p e); cbn [negb length] in *; lia. }
  assert (K : length (filter p es) = length (filter q es)); [|lia].
  assert (HN : forall f, NoDup (map (fun e : nat * nat => (snd e, fst e)) (filter f es))).
  { intros f. apply FinFun.Injective_map_NoDup; [intros [a b] [c d] E0; cbn in E0; congruence|]. apply NoDup_filter, Hn. }
  apply Nat.le_antisymm.
  - rewrite <- (map_length (fun e : nat * nat => (snd e, fst e)) (filter p es)).
    apply NoDup_incl_length; [apply HN|]. intros e He. apply in_map_iff in He as ([u v] & <- & H).
    apply filter_In in H as [H1 H2]. destruct (Hc u v H1) as [H3 H4]. apply filter_In. split; [exact H4|].
    unfold q, p in *. cbn in *. apply Nat.ltb_lt in H2. apply negb_true_iff, Nat.ltb_ge. lia.
  - rewrite <- (map_length (fun e : nat * nat => (snd e, fst e)) (filter q es)).
    apply NoDup_incl_length; [apply HN|]. intros e He. apply in_map_iff in He as ([u v] & <- & H).
    apply filter_In in H as [H1 H2]. destruct (Hc u v H1) as [H3 H4]. apply filter_In. split; [exact H4|].
    unfold q, p in *. cbn in *. apply negb_true_iff, Nat.ltb_ge in H2. apply Nat.ltb_lt. lia.
Qed.

(** ** Index arithmetic *)

Lemma usub_small W x y : y <= x -> x < W -> usub W x y = x - y.
Proof.
  intros H1 H2. unfold usub. replace (x + (W - y)) with (x - y + 1 * W) by lia.
  rewrite Nat.mod_add by lia. apply Nat.mod_small. lia.
Qed.
Lemma usub_wrap W x y : x < y -> y <= W -> usub W x y = W + x - y.
Proof. intros H1 H2. unfold usub. rewrite Nat.mod_small; lia. Qed.

(** ** The sphere *)

Inductive svert := Top | Bot | Ring (i j : nat).
Inductive stag := TT (j : nat) | TB (j : nat) | BA (i j : nat) | BB (i j : nat).

Definition prv (a j : nat) : nat := if j =? 0 then a - 1 else j - 1.
Definition nxt (a j : nat) : nat := if j =? a - 1 then 0 else j + 1.

Section Sphere.
  Context (p a : nat).

  Definition sv_ok (v : svert) : Prop := match v with Ring i j => i < p - 1 /\ j < a | _ => True end.
  Definition tag_ok (t : stag) : Prop :=
    match t with
    | TT j | TB j => j < a
    | BA i j | BB i j => 1 <= i < p - 1 /\ j < a
    end.

  (** the triangle of a tag, up to rotation *)
  Definition stri (t : stag) : svert * svert * svert :=
    match t with
    | TT j => (Top, Ring 0 j, Ring 0 (prv a j))
    | TB j => (Ring (p - 2) j, Bot, Ring (p - 2) (prv a j))
    | BA i j => (Ring (i - 1) j, Ring i (prv a j), Ring (i - 1) (prv a j))
    | BB i j => (Ring i (prv a j), Ring (i - 1) j, Ring i j)
    end.
  (** the triangle as the code writes it *)
  Definition ctri (t : stag) : svert * svert * svert :=
    match t with
    | TT 0 => (Ring 0 (a - 1), Top, Ring 0 0)
    | BA i 0 => (Ring i (a - 1), Ring (i - 1) (a - 1), Ring (i - 1) 0)
    | BB i 0 => (Ring i 0, Ring i (a - 1), Ring (i - 1) 0)
    | _ => stri t
    end.

  Definition ctags : list stag :=
    [TT 0; TB 0] ++ flat_map (fun j => [TT j; TB j]) (seq 1 (a - 1)) ++
    flat_map (fun i => flat_map (fun j => [BA i j; BB i j]) (seq 1 (a - 1)) ++ [BA i 0; BB i 0]) (seq 1 (p - 2)).

  Lemma ctri_edges t e : In e (edges3 (ctri t)) <-> In e (edges3 (stri t)).
  Proof. destruct t as [[|j]|[|j]|i [|j]|i [|j]]; cbn; unfold prv; cbn; intuition auto. Qed.

  Hypothesis Hp : 2 <= p.

  Ltac prv_cases := unfold prv in *; repeat match goal with
    | |- context [?x =? 0] => destruct (Nat.eqb_spec x 0)
    | H : context [?x =? 0] |- _ => destruct (Nat.eqb_spec x 0)
    end.

  (** position of a vertex in the point list *)
  Definition senc (v : svert) : nat :=
    match v with Top => (p - 1) * a | Bot => (p - 1) * a + 1 | Ring i j => i * a + j end.

  Lemma ctags_ok1 t : 1 <= a -> In t ctags <-> tag_ok t.
  Proof.
    intros Ha1. unfold ctags. rewrite !in_app_iff, !in_flat_map. cbn [In]. split.
    - intros [[<-|[<-|[]]]|[(j & Hj & [<-|[<-|[]]])|(i & Hi & H)]]; cbn [tag_ok]; try apply in_seq in Hj; try lia.
      apply in_seq in Hi. rewrite in_app_iff, in_flat_map in H.
      destruct H as [(j & Hj & [<-|[<-|[]]])|[<-|[<-|[]]]]; cbn; try apply in_seq in Hj; lia.
    - destruct t as [j|j|i j|i j]; cbn [tag_ok]; intros H.
      + destruct j as [|j]; [auto|]. right; left. exists (S j). rewrite in_seq. split; [lia|cbn; auto].
      + destruct j as [|j]; [auto|]. right; left. exists (S j). rewrite in_seq. split; [lia|cbn; auto].
      + right; right. exists i. rewrite in_seq, in_app_iff, in_flat_map. split; [lia|].
        destruct j as [|j]; [right; cbn; auto|left; exists (S j); rewrite in_seq; split; [lia|cbn; auto]].
      + right; right. exists i. rewrite in_seq, in_app_iff, in_flat_map. split; [lia|].
        destruct j as [|j]; [right; cbn; auto|left; exists (S j); rewrite in_seq; split; [lia|cbn; auto]].
  Qed.
  Lemma ctags_length1 : 1 <= a -> length ctags = 2 * a * (p - 1).
  Proof.
    intros Ha1. unfold ctags. rewrite !app_length.
    rewrite (flat_map_length_const _ 2) by reflexivity.
    rewrite (flat_map_length_const _ (2 * a)).
    - rewrite !seq_length. cbn. replace (p - 1) with (S (p - 2)) by lia. nia.
    - intros i _. rewrite app_length, (flat_map_length_const _ 2) by reflexivity. rewrite seq_length. cbn. lia.
  Qed.
  Lemma senc_ring_lt i j : i < p - 1 -> j < a -> i * a + j < (p - 1) * a.
  Proof. nia. Qed.
  Lemma senc_lt1 v : 1 <= a -> sv_ok v -> senc v < (p - 1) * a + 2.
  Proof. intros Ha1. destruct v as [| |i j]; cbn; intros H; nia. Qed.
  Lemma ctri_ok1 t : 1 <= a -> tag_ok t -> let '(x, y, z) := ctri t in sv_ok x /\ sv_ok y /\ sv_ok z.
  Proof. intros Ha1. destruct t as [[|j]|[|j]|i [|j]|i [|j]]; cbn; intros H; prv_cases; lia. Qed.
  Lemma sphere_indices_eq1 W : 1 <= a -> (p - 1) * a + 2 < W -> p < W -> a < W ->
    sphere_indices W p a ((p - 1) * a + 2) = flat3 (map (map3 senc) (map ctri ctags)).
  Proof.
    intros Ha1 HW HpW HaW. unfold sphere_indices, ctags. pose proof (Nat.le_0_l ((p - 1) * a)) as HN.
    rewrite (usub_small W a 1), (usub_small W p 2), (usub_small W p 1), (usub_small W _ 2), (usub_small W (_ + 2) 1) by lia.
    replace ((p - 1) * a + 2 - 2) with (senc Top) by (cbn; lia).
    replace ((p - 1) * a + 2 - 1) with (senc Bot) by (cbn; lia).
    assert (T : forall i j, i < p - 1 -> j < a -> toIdx W a i j = senc (Ring i j)).
    { intros i j Hi Hj. unfold toIdx. cbn. apply Nat.mod_small. pose proof (senc_ring_lt i j); lia. }
    replace (p - 1 - 1) with (p - 2) by lia.
    rewrite !map_app, !map_flat_map, !flat3_app, !flat3_flat_map.
    rewrite (T 0 (a - 1)), (T 0 0), (T (p - 2) 0), (T (p - 2) (a - 1)) by lia.
    do 6 (apply (f_equal2 cons); [reflexivity|]).
    apply (f_equal2 (@app nat)).
    - apply flat_map_ext_in. intros j Hj. apply in_seq in Hj. rewrite usub_small by lia.
      rewrite !T by lia. destruct j as [|j]; [lia|]. cbn. unfold prv. cbn. reflexivity.
    - apply flat_map_ext_in. intros i Hi. apply in_seq in Hi. rewrite usub_small by lia.
      rewrite !map_app, !map_flat_map, !flat3_app, !flat3_flat_map. f_equal.
      + apply flat_map_ext_in. intros j Hj. apply in_seq in Hj. rewrite usub_small by lia.
        rewrite !T by lia. destruct j as [|j]; [lia|]. cbn [map flat3 flat_map ctri stri map3 app]. unfold prv. cbn [Nat.eqb].
        reflexivity.
      + rewrite !T by lia. reflexivity.
  Qed.

  Hypothesis Ha : 3 <= a.

  Lemma ctags_ok t : In t ctags <-> tag_ok t.
  Proof. apply ctags_ok1; lia. Qed.

  Lemma ctags_NoDup : NoDup ctags.
  Proof.
    unfold ctags. apply NoDup_app_intro; [|apply NoDup_app_intro|].
    - repeat constructor; cbn; intuition congruence.
    - apply NoDup_flat_map_intro; [apply seq_NoDup| |].
      + intros j _. repeat constructor; cbn; intuition congruence.
      + intros j k e _ _ Hj Hk. cbn in Hj, Hk. destruct Hj as [<-|[<-|[]]], Hk as [E|[E|[]]]; congruence.
    - apply NoDup_flat_map_intro; [apply seq_NoDup| |].
      + intros i _. apply NoDup_app_intro.
        * apply NoDup_flat_map_intro; [apply seq_NoDup| |].
          -- intros j _. repeat constructor; cbn; intuition congruence.
          -- intros j k e _ _ Hj Hk. cbn in Hj, Hk. destruct Hj as [<-|[<-|[]]], Hk as [E|[E|[]]]; congruence.
        * repeat constructor; cbn; intuition congruence.
        * intros e He [<-|[<-|[]]]; apply in_flat_map in He as (j & Hj & [E|[E|[]]]);
            apply in_seq in Hj; first [discriminate E|injection E; lia].
      + intros i k e _ _ Hi Hk. rewrite in_app_iff, in_flat_map in Hi, Hk.
        assert (K : forall i', (exists j, In j (seq 1 (a - 1)) /\ In e [BA i' j; BB i' j]) \/ In e [BA i' 0; BB i' 0] ->
                      match e with BA x _ | BB x _ => x = i' | _ => False end).
        { intros i' [(j & _ & [<-|[<-|[]]])|[<-|[<-|[]]]]; reflexivity. }
        pose proof (K i Hi) as K1. pose proof (K k Hk) as K2. destruct e; cbn in K1, K2; first [contradiction|congruence].
    - intros e He Hf. apply in_flat_map in He as (j & _ & He), Hf as (i & _ & Hf).
      rewrite in_app_iff, in_flat_map in Hf.
      destruct He as [<-|[<-|[]]], Hf as [(k & _ & [E|[E|[]]])|[E|[E|[]]]]; congruence.
    - intros e He Hf. rewrite in_app_iff, !in_flat_map in Hf.
      destruct He as [<-|[<-|[]]], Hf as [(j & Hj & [E|[E|[]]])|(i & Hi & Hf)];
        try (apply in_seq in Hj; first [discriminate E|injection E; lia]);
        rewrite in_app_iff, in_flat_map in Hf; destruct Hf as [(k & _ & [E|[E|[]]])|[E|[E|[]]]]; congruence.
  Qed.

  Lemma ctags_length : length ctags = 2 * a * (p - 1).
  Proof. apply ctags_length1; lia. Qed.


  Lemma stri_inj t t' e : tag_ok t -> tag_ok t' -> In e (edges3 (stri t)) -> In e (edges3 (stri t')) -> t = t'.
  Proof.
    destruct t as [j|j|i j|i j], t' as [j'|j'|i' j'|i' j']; cbn [tag_ok stri edges3 In]; intros H H';
      intros [<-|[<-|[<-|[]]]] [E|[E|[E|[]]]]; try discriminate E;
      injection E; clear E; intros; prv_cases; try lia; try (f_equal; lia).
  Qed.

  Lemma stri_closed t u v : tag_ok t -> In (u, v) (edges3 (stri t)) ->
    u <> v /\ exists t', tag_ok t' /\ In (v, u) (edges3 (stri t')).
  Proof.
    intros Ht H. split.
    { destruct t as [j|j|i j|i j]; cbn in *; destruct H as [E|[E|[E|[]]]]; injection E as <- <-;
        try discriminate; intros E; injection E; prv_cases; lia. }
    assert (Hnx : forall j, j < a -> nxt a j < a /\ prv a (nxt a j) = j).
    { intros j Hj. unfold nxt, prv. destruct (Nat.eqb_spec j (a - 1)); cbn; [lia|].
      destruct (Nat.eqb_spec (j + 1) 0); lia. }
    assert (Hpv : forall j, j < a -> prv a j < a) by (intros j Hj; prv_cases; lia).
    destruct t as [j|j|i j|i j]; cbn [tag_ok stri edges3 In] in Ht, H; destruct H as [E|[E|[E|[]]]]; injection E as <- <-.
    - exists (TT (nxt a j)). cbn. destruct (Hnx j Ht) as [A ->]. auto.
    - destruct (Nat.eq_dec p 2) as [E|Hp2].
      + exists (TB j). cbn. replace (p - 2) with 0 by lia. auto.
      + exists (BA 1 j). cbn. split; [lia|auto].
    - exists (TT (prv a j)). cbn. specialize (Hpv j Ht). auto.
    - exists (TB (nxt a j)). cbn. destruct (Hnx j Ht) as [A ->]. auto.
    - exists (TB (prv a j)). cbn. specialize (Hpv j Ht). auto.
    - destruct (Nat.eq_dec p 2) as [E|Hp2].
      + exists (TT j). cbn. replace (p - 2) with 0 by lia. auto.
      + exists (BB (p - 2) j). cbn. split; [lia|auto].
    - exists (BB i j). cbn. auto.
    - exists (BB i (prv a j)). cbn. split; [split; [lia|apply Hpv; lia]|auto].
    - destruct (Nat.eq_dec i 1) as [->|Hi].
      + exists (TT j). cbn. split; [lia|auto].
      + exists (BB (i - 1) j). cbn. split; [lia|auto].
    - exists (BA i j). cbn. auto.
    - exists (BA i (nxt a j)). cbn. destruct (Hnx j) as [A ->]; [lia|]. split; [lia|auto].
    - destruct (Nat.eq_dec i (p - 2)) as [->|Hi].
      + exists (TB j). cbn. split; [lia|auto].
      + exists (BA (i + 1) j). cbn. replace (i + 1 - 1) with i by lia. split; [lia|auto].
  Qed.

  Lemma ctri_closed : closed_oriented (flat_map edges3 (map ctri ctags)).
  Proof.
    apply closed_by_tags; [exact ctags_NoDup| |].
    - intros t t' e H1 H2 H3 H4. rewrite ctri_edges in H3, H4. apply (stri_inj t t' e); try apply ctags_ok; assumption.
    - intros t u v H1 H2. rewrite ctri_edges in H2. destruct (stri_closed t u v) as (H & t' & A & B); [apply ctags_ok, H1|exact H2|].
      split; [exact H|]. exists t'. rewrite ctags_ok, ctri_edges. auto.
  Qed.


  Lemma senc_lt v : sv_ok v -> senc v < (p - 1) * a + 2.
  Proof. apply senc_lt1; lia. Qed.
  Lemma senc_inj u v : sv_ok u -> sv_ok v -> senc u = senc v -> u = v.
  Proof.
    destruct u as [| |i j], v as [| |i' j']; cbn; intros Hu Hv E; try reflexivity; try lia;
      try (pose proof (senc_ring_lt i j); lia); try (pose proof (senc_ring_lt i' j'); lia).
    assert (i = i') by nia. subst. f_equal. lia.
  Qed.
  Lemma senc_surj k : k < (p - 1) * a + 2 -> exists v, sv_ok v /\ senc v = k.
  Proof.
    intros H. destruct (Nat.eq_dec k ((p - 1) * a)) as [->|]; [exists Top; cbn; auto|].
    destruct (Nat.eq_dec k ((p - 1) * a + 1)) as [->|]; [exists Bot; cbn; auto|].
    exists (Ring (k / a) (k mod a)). cbn. pose proof (Nat.div_mod k a ltac:(lia)). pose proof (Nat.mod_upper_bound k a ltac:(lia)).
    split; [|lia]. split; [|assumption]. apply Nat.div_lt_upper_bound; lia.
  Qed.

  (** the corners of every triangle are vertices; every vertex is a corner *)
  Lemma stri_ok t : tag_ok t -> let '(x, y, z) := stri t in sv_ok x /\ sv_ok y /\ sv_ok z.
  Proof. destruct t as [j|j|i j|i j]; cbn; intros H; prv_cases; lia. Qed.
  Lemma ctri_ok t : tag_ok t -> let '(x, y, z) := ctri t in sv_ok x /\ sv_ok y /\ sv_ok z.
  Proof. apply ctri_ok1; lia. Qed.
  Lemma ctri_cover v : sv_ok v -> In v (flat3 (map ctri ctags)).
  Proof.
    intros H. rewrite flat3_In. destruct v as [| |i j].
    - exists (Ring 0 (a - 1)), Top, (Ring 0 0). split; [|auto]. apply in_map_iff. exists (TT 0). split; [reflexivity|].
      apply ctags_ok. cbn. lia.
    - exists (Ring (p - 2) 0), Bot, (Ring (p - 2) (a - 1)). split; [|auto]. apply in_map_iff. exists (TB 0).
      split; [reflexivity|]. apply ctags_ok. cbn. lia.
    - cbn in H. destruct i as [|i].
      + destruct j as [|j].
        * exists (Ring 0 (a - 1)), Top, (Ring 0 0). split; [|auto]. apply in_map_iff. exists (TT 0). split; [reflexivity|].
          apply ctags_ok. cbn. lia.
        * exists Top, (Ring 0 (S j)), (Ring 0 (prv a (S j))). split; [|auto]. apply in_map_iff. exists (TT (S j)).
          split; [reflexivity|]. apply ctags_ok. cbn. lia.
      + destruct j as [|j].
        * exists (Ring (S i) 0), (Ring (S i) (a - 1)), (Ring (S i - 1) 0). split; [|auto]. apply in_map_iff.
          exists (BB (S i) 0). split; [reflexivity|]. apply ctags_ok. cbn. lia.
        * exists (Ring (S i) (prv a (S j))), (Ring (S i - 1) (S j)), (Ring (S i) (S j)). split; [|auto]. apply in_map_iff.
          exists (BB (S i) (S j)). split; [reflexivity|]. apply ctags_ok. cbn. lia.
  Qed.

  (** the index buffer of the code *)
  Lemma sphere_indices_eq W : (p - 1) * a + 2 < W -> p < W -> a < W ->
    sphere_indices W p a ((p - 1) * a + 2) = flat3 (map (map3 senc) (map ctri ctags)).
  Proof. apply sphere_indices_eq1; lia. Qed.
End Sphere.

(** ** Circles *)

Lemma seq_from k n : seq k n = map (fun j => k + j) (seq 0 n).
Proof.
  revert k. induction n as [|n IH]; intros k; [reflexivity|]. cbn [seq map]. f_equal; [lia|].
  rewrite (IH (S k)), (IH 1), map_map. apply map_ext. intros; lia.
Qed.

Lemma circle_indices_eq W a mid : mid + a + 1 < W ->
  circle_indices W a mid = Ok (flat3 (map (fun j => (mid, mid + 1 + j, mid + 1 + nxt a j)) (seq 0 a))).
Proof.
  intros H. unfold circle_indices. rewrite (Nat.mod_small (mid + 1)) by lia.
  destruct (Nat.eq_dec a 0) as [->|Ha].
  - rewrite usub_small by lia. rewrite (proj2 (Nat.eqb_neq _ _)) by lia. repeat f_equal.
    replace (mid + 1 + 0 - 1 + 1 - (mid + 1)) with 0 by lia. reflexivity.
  - rewrite usub_small by lia. rewrite (proj2 (Nat.eqb_neq _ _)) by lia. f_equal.
    replace (mid + 1 + a - 1 + 1 - (mid + 1)) with a by lia.
    unfold flat3. rewrite flat_map_map.
    rewrite (seq_from (mid + 1) a), flat_map_map. apply flat_map_ext_in. intros j Hj. apply in_seq in Hj. unfold nxt.
    destruct (Nat.eqb_spec (mid + 1 + j) (mid + 1 + a - 1)), (Nat.eqb_spec j (a - 1)); try lia.
    + replace (mid + 1 + 0) with (mid + 1) by lia. reflexivity.
    + rewrite Nat.mod_small by lia. replace (mid + 1 + (j + 1)) with (mid + 1 + j + 1) by lia. reflexivity.
Qed.

(** ** The cone *)

Inductive kvert := KC | KP | KR (j : nat).
Inductive ktag := KB (j : nat) | KM (j : nat).

Ltac cyc := unfold prv, nxt in *; repeat match goal with
  | |- context [?x =? ?y] => destruct (Nat.eqb_spec x y)
  | H : context [?x =? ?y] |- _ => destruct (Nat.eqb_spec x y)
  end.

Section Cone.
  Context (a : nat).

  Definition kv_ok (v : kvert) : Prop := match v with KR j => j < a | _ => True end.
  Definition ktri (t : ktag) : kvert * kvert * kvert :=
    match t with
    | KB j => (KC, KR j, KR (nxt a j))
    | KM j => (KP, KR (nxt a j), KR j)
    end.
  Definition ktags : list ktag := map KB (seq 0 a) ++ map KM (seq 0 a).
  Definition ktag_ok (t : ktag) : Prop := match t with KB j | KM j => j < a end.
  Definition kenc (v : kvert) : nat := match v with KC => 0 | KR j => 1 + j | KP => a + 1 end.

  Lemma ktags_ok t : In t ktags <-> ktag_ok t.
  Proof.
    unfold ktags. rewrite in_app_iff, !in_map_iff. split.
    - intros [(j & <- & Hj)|(j & <- & Hj)]; apply in_seq in Hj; cbn; lia.
    - destruct t as [j|j]; cbn; intros H; [left|right]; exists j; rewrite in_seq; (split; [reflexivity|lia]).
  Qed.
  Lemma ktags_NoDup : NoDup ktags.
  Proof.
    apply NoDup_app_intro.
    - apply Injective_map_NoDup; [intros x y E; congruence|apply seq_NoDup].
    - apply Injective_map_NoDup; [intros x y E; congruence|apply seq_NoDup].
    - intros t H H'. apply in_map_iff in H as (j & <- & _), H' as (k & E & _). discriminate E.
  Qed.
  Lemma ktags_length : length ktags = 2 * a.
  Proof. unfold ktags. rewrite app_length, !map_length, seq_length. lia. Qed.

  Lemma kenc_lt v : kv_ok v -> kenc v < a + 2.
  Proof. destruct v; cbn; lia. Qed.
  Lemma kenc_inj u v : kv_ok u -> kv_ok v -> kenc u = kenc v -> u = v.
  Proof. destruct u, v; cbn; intros; try reflexivity; try lia. f_equal; lia. Qed.
  Lemma kenc_surj k : k < a + 2 -> exists v, kv_ok v /\ kenc v = k.
  Proof.
    intros H. destruct k as [|k]; [exists KC; cbn; auto|].
    destruct (Nat.eq_dec k a) as [->|]; [exists KP; cbn; lia|]. exists (KR k). cbn. lia.
  Qed.
  Lemma ktri_ok t : ktag_ok t -> let '(x, y, z) := ktri t in kv_ok x /\ kv_ok y /\ kv_ok z.
  Proof. destruct t; cbn; intros H; cyc; lia. Qed.
  Lemma ktri_cover v : 0 < a -> kv_ok v -> In v (flat3 (map ktri ktags)).
  Proof.
    intros Ha H. rewrite flat3_In. destruct v as [| |j].
    - exists KC, (KR 0), (KR (nxt a 0)). split; [|auto]. apply in_map_iff. exists (KB 0). rewrite ktags_ok. auto.
    - exists KP, (KR (nxt a 0)), (KR 0). split; [|auto]. apply in_map_iff. exists (KM 0). rewrite ktags_ok. auto.
    - exists KC, (KR j), (KR (nxt a j)). split; [|auto]. apply in_map_iff. exists (KB j). rewrite ktags_ok. auto.
  Qed.

  Lemma ktri_closed : 3 <= a -> closed_oriented (flat_map edges3 (map ktri ktags)).
  Proof.
    intros Ha. apply closed_by_tags; [exact ktags_NoDup| |].
    - intros t t' e Ht Ht'. apply ktags_ok in Ht, Ht'. destruct t as [j|j], t' as [j'|j'];
        cbn [ktag_ok ktri edges3 In] in *; intros [<-|[<-|[<-|[]]]] [E|[E|[E|[]]]]; try discriminate E;
        injection E; clear E; intros; cyc; try lia; try (f_equal; lia).
    - intros t u v Ht H. apply ktags_ok in Ht. split.
      { destruct t as [j|j]; cbn in *; destruct H as [E|[E|[E|[]]]]; injection E as <- <-;
          try discriminate; intros E; injection E; cyc; lia. }
      assert (Hnx : forall j, j < a -> nxt a j < a) by (intros j Hj; cyc; lia).
      assert (Hpv : forall j, j < a -> prv a j < a /\ nxt a (prv a j) = j) by (intros j Hj; cyc; lia).
      destruct t as [j|j]; cbn [ktag_ok ktri edges3 In] in Ht, H; destruct H as [E|[E|[E|[]]]]; injection E as <- <-.
      + exists (KB (prv a j)). rewrite ktags_ok. cbn. destruct (Hpv j Ht) as [A ->]. auto.
      + exists (KM j). rewrite ktags_ok. cbn. auto.
      + exists (KB (nxt a j)). rewrite ktags_ok. cbn. auto.
      + exists (KM (nxt a j)). rewrite ktags_ok. cbn. auto.
      + exists (KB j). rewrite ktags_ok. cbn. auto.
      + exists (KM (prv a j)). rewrite ktags_ok. cbn. destruct (Hpv j Ht) as [A ->]. auto.
  Qed.
End Cone.

(** ** The cylinder *)

Inductive yvert := YB | YT | YRB (j : nat) | YRT (j : nat).   (* centres and rims, bottom and top *)
Inductive ytag := YCB (j : nat) | YCT (j : nat) | YM (j : nat) | YN (j : nat).

(** the top rim is listed the other way round *)
Definition neg (a j : nat) : nat := if j =? 0 then 0 else a - j.

Section Cylinder.
  Context (a : nat).

  Ltac cyc2 := unfold neg in *; cyc.

  Definition yv_ok (v : yvert) : Prop := match v with YRB j | YRT j => j < a | _ => True end.
  (** [YRT j] lies above [YRB j] *)
  Definition ytri (t : ytag) : yvert * yvert * yvert :=
    match t with
    | YCB j => (YB, YRB j, YRB (nxt a j))
    | YCT j => (YT, YRT j, YRT (prv a j))
    | YM j => (YRB j, YRT j, YRB (nxt a j))
    | YN j => (YRT j, YRT (nxt a j), YRB (nxt a j))
    end.
  Definition ytags : list ytag :=
    map YCB (seq 0 a) ++ map (fun k => YCT (neg a k)) (seq 0 a) ++ flat_map (fun j => [YM j; YN j]) (seq 0 a).
  Definition ytag_ok (t : ytag) : Prop := match t with YCB j | YCT j | YM j | YN j => j < a end.
  Definition yenc (v : yvert) : nat :=
    match v with YB => 0 | YRB j => 1 + j | YT => a + 1 | YRT j => a + 2 + neg a j end.

  Lemma neg_lt j : j < a -> neg a j < a.
  Proof. intros H. cyc2; lia. Qed.
  Lemma neg_neg j : j < a -> neg a (neg a j) = j.
  Proof. intros H. cyc2; lia. Qed.

  Lemma ytags_ok t : In t ytags <-> ytag_ok t.
  Proof.
    unfold ytags. rewrite !in_app_iff, !in_map_iff, in_flat_map. split.
    - intros [(j & <- & Hj)|[(j & <- & Hj)|(j & Hj & [<-|[<-|[]]])]]; apply in_seq in Hj; cbn; try apply neg_lt; lia.
    - destruct t as [j|j|j|j]; cbn [ytag_ok]; intros H.
      + left. exists j. rewrite in_seq. split; [reflexivity|lia].
      + right; left. exists (neg a j). rewrite in_seq, neg_neg by exact H. pose proof (neg_lt j H). split; [reflexivity|lia].
      + right; right. exists j. rewrite in_seq. cbn. split; [lia|auto].
      + right; right. exists j. rewrite in_seq. cbn. split; [lia|auto].
  Qed.
  Lemma NoDup_map_on {A B} (f : A -> B) l : NoDup l -> (forall x y, In x l -> In y l -> f x = f y -> x = y) -> NoDup (map f l).
  Proof.
    intros H. induction H as [|x l Hx H IH]; intros Hf; [constructor|]. cbn. constructor.
    - intros K. apply in_map_iff in K as (y & E & K). assert (x = y); [|subst; contradiction].
      apply Hf; [left; reflexivity|right; exact K|symmetry; exact E].
    - apply IH. intros u v Hu Hv. apply Hf; right; assumption.
  Qed.
  Lemma ytags_NoDup : NoDup ytags.
  Proof.
    apply NoDup_app_intro; [|apply NoDup_app_intro|].
    - apply Injective_map_NoDup; [intros x y E; congruence|apply seq_NoDup].
    - apply NoDup_map_on; [apply seq_NoDup|]. intros x y Hx Hy E. apply in_seq in Hx, Hy. injection E as E.
      rewrite <- (neg_neg x), <- (neg_neg y) by lia. congruence.
    - apply NoDup_flat_map_intro; [apply seq_NoDup| |].
      + intros j _. repeat constructor; cbn; intuition congruence.
      + intros x y e _ _ Hx Hy. cbn in Hx, Hy. destruct Hx as [<-|[<-|[]]], Hy as [E|[E|[]]]; congruence.
    - intros t H H'. apply in_map_iff in H as (j & <- & _). apply in_flat_map in H' as (k & _ & [E|[E|[]]]); discriminate E.
    - intros t H H'. apply in_map_iff in H as (j & <- & _). rewrite in_app_iff, in_map_iff, in_flat_map in H'.
      destruct H' as [(k & E & _)|(k & _ & [E|[E|[]]])]; discriminate E.
  Qed.
  Lemma ytags_length : length ytags = 4 * a.
  Proof.
    unfold ytags. rewrite !app_length, !map_length, (flat_map_length_const _ 2) by reflexivity. rewrite seq_length. lia.
  Qed.

  Lemma yenc_lt v : yv_ok v -> yenc v < 2 * a + 2.
  Proof. destruct v; cbn; intros; try pose proof (neg_lt j); lia. Qed.
  Lemma yenc_inj u v : yv_ok u -> yv_ok v -> yenc u = yenc v -> u = v.
  Proof.
    destruct u, v; cbn; intros Hu Hv E; try reflexivity; try lia; f_equal; try lia.
    rewrite <- (neg_neg j), <- (neg_neg j0) by assumption. f_equal. lia.
  Qed.
  Lemma yenc_surj k : k < 2 * a + 2 -> exists v, yv_ok v /\ yenc v = k.
  Proof.
    intros H. destruct (Nat.eq_dec k 0) as [->|]; [exists YB; cbn; auto|].
    destruct (Nat.eq_dec k (a + 1)) as [->|]; [exists YT; cbn; auto|].
    destruct (Nat.lt_ge_cases k (a + 1)).
    - exists (YRB (k - 1)). cbn. lia.
    - exists (YRT (neg a (k - (a + 2)))). cbn [yv_ok yenc]. rewrite neg_neg by lia. split; [apply neg_lt; lia|lia].
  Qed.
  Lemma ytri_ok t : ytag_ok t -> let '(x, y, z) := ytri t in yv_ok x /\ yv_ok y /\ yv_ok z.
  Proof. destruct t; cbn; intros H; cyc; lia. Qed.
  Lemma ytri_cover v : 0 < a -> yv_ok v -> In v (flat3 (map ytri ytags)).
  Proof.
    intros Ha H. rewrite flat3_In. destruct v as [| |j|j].
    - exists YB, (YRB 0), (YRB (nxt a 0)). split; [|auto]. apply in_map_iff. exists (YCB 0). rewrite ytags_ok. auto.
    - exists YT, (YRT 0), (YRT (prv a 0)). split; [|auto]. apply in_map_iff. exists (YCT 0). rewrite ytags_ok. auto.
    - exists YB, (YRB j), (YRB (nxt a j)). split; [|auto]. apply in_map_iff. exists (YCB j). rewrite ytags_ok. auto.
    - exists YT, (YRT j), (YRT (prv a j)). split; [|auto]. apply in_map_iff. exists (YCT j). rewrite ytags_ok. auto.
  Qed.

  Lemma ytri_closed : 3 <= a -> closed_oriented (flat_map edges3 (map ytri ytags)).
  Proof.
    intros Ha. apply closed_by_tags; [exact ytags_NoDup| |].
    - intros t t' e Ht Ht'. apply ytags_ok in Ht, Ht'. destruct t as [j|j|j|j], t' as [j'|j'|j'|j'];
        cbn [ytag_ok ytri edges3 In] in *; intros [<-|[<-|[<-|[]]]] [E|[E|[E|[]]]]; try discriminate E;
        injection E; clear E; intros; cyc; try lia; try (f_equal; lia).
    - intros t u v Ht H. apply ytags_ok in Ht. split.
      { destruct t as [j|j|j|j]; cbn in *; destruct H as [E|[E|[E|[]]]]; injection E as <- <-;
          try discriminate; intros E; injection E; cyc; lia. }
      assert (Hnx : forall j, j < a -> nxt a j < a /\ prv a (nxt a j) = j) by (intros j Hj; cyc; lia).
      assert (Hpv : forall j, j < a -> prv a j < a /\ nxt a (prv a j) = j) by (intros j Hj; cyc; lia).
      destruct t as [j|j|j|j]; cbn [ytag_ok ytri edges3 In] in Ht, H; destruct H as [E|[E|[E|[]]]]; injection E as <- <-;
        destruct (Hnx j Ht) as [N1 N2], (Hpv j Ht) as [P1 P2].
      + exists (YCB (prv a j)). rewrite ytags_ok. cbn. rewrite P2. auto.
      + exists (YM j). rewrite ytags_ok. cbn. auto.
      + exists (YCB (nxt a j)). rewrite ytags_ok. cbn. auto.
      + exists (YCT (nxt a j)). rewrite ytags_ok. cbn. rewrite N2. auto.
      + exists (YN (prv a j)). rewrite ytags_ok. cbn. rewrite P2. auto.
      + exists (YCT (prv a j)). rewrite ytags_ok. cbn. auto.
      + exists (YN (prv a j)). rewrite ytags_ok. cbn. rewrite P2. auto.
      + exists (YN j). rewrite ytags_ok. cbn. auto.
      + exists (YCB j). rewrite ytags_ok. cbn. auto.
      + exists (YCT (nxt a j)). rewrite ytags_ok. cbn. rewrite N2. auto.
      + exists (YM (nxt a j)). rewrite ytags_ok. cbn. auto.
      + exists (YM j). rewrite ytags_ok. cbn. auto.
  Qed.

  (** the loop for the mantle *)
  Lemma mantle_eq W j : 2 * a + 2 < W -> j < a ->
    mantle W (fun i => if i =? a + 2 then 2 * a + 1 else usub W i 1) (a - 1 - j) (1 + j) (a + 2 + neg a j) =
    flat3 (map (map3 yenc) (map ytri (flat_map (fun j => [YM j; YN j]) (seq j (a - 1 - j))))).
  Proof.
    intros HW. remember (a - 1 - j) as k eqn:Ek. revert j Ek. induction k as [|k IH]; intros j Ek Hj; [reflexivity|].
    cbn [mantle seq flat_map]. rewrite !map_app, flat3_app.
    assert (N : (if a + 2 + neg a j =? a + 2 then 2 * a + 1 else usub W (a + 2 + neg a j) 1) = a + 2 + neg a (S j)).
    { destruct (Nat.eqb_spec (a + 2 + neg a j) (a + 2)); [cyc2; lia|]. rewrite usub_small by (cyc2; lia). cyc2; lia. }
    rewrite N. rewrite Nat.mod_small by lia. replace (1 + j + 1) with (1 + S j) by lia.
    rewrite IH by lia. cbn [map flat3 flat_map ytri map3 app].
    replace (nxt a j) with (S j) by (cyc; lia). reflexivity.
  Qed.
End Cylinder.

Section Buffers.
  Context {S : Scalar}.

  Lemma circle_points_length (c : point S) r a d : length (circle_points c r a d) = a + 1.
  Proof. unfold circle_points, discretize_circle. cbn [length]. rewrite map_length, seq_length. lia. Qed.

  Lemma cone_triangles_eq W a (c : cone S) : a + 2 < W ->
    exists pts, cone_triangles W a c = Ok (pts, flat3 (map (map3 (kenc a)) (map (ktri a) (ktags a)))) /\
      pts = circle_points (mk3 s0 s0 s0) (co_radius c) a CCW ++ [mk3 s0 s0 (segment_length (co_segment c))].
  Proof.
    intros H. unfold cone_triangles. rewrite circle_indices_eq by lia. cbn [bind].
    rewrite app_length, circle_points_length. cbn [length].
    rewrite !Nat.mod_small by lia. rewrite (proj2 (Nat.eqb_neq _ _)) by lia.
    eexists. split; [|reflexivity]. f_equal. f_equal. unfold ktags. rewrite !map_app, flat3_app, !map_map.
    apply (f_equal2 (@app nat)); [reflexivity|].
    replace (a + 1 + 1 - 2 + 1 - 1) with a by lia. rewrite (seq_from 1 a), flat_map_map. unfold flat3. rewrite flat_map_map.
    apply flat_map_ext_in. intros j Hj. apply in_seq in Hj. cbn [ktri map3 kenc]. unfold nxt.
    destruct (Nat.eqb_spec (1 + j) (a + 1 + 1 - 2)), (Nat.eqb_spec j (a - 1)); try lia.
    - repeat (apply (f_equal2 cons); [lia|]). reflexivity.
    - rewrite Nat.mod_small by lia. repeat (apply (f_equal2 cons); [lia|]). reflexivity.
  Qed.

  Lemma cylinder_triangles_eq W dbg a (c : cylinder S) : 2 <= a -> 2 * a + 2 < W ->
    exists pts, cylinder_triangles W dbg a c = Ok (pts, flat3 (map (map3 (yenc a)) (map (ytri a) (ytags a)))) /\
      pts = circle_points (mk3 s0 s0 s0) (cy_radius c) a CCW ++
            circle_points (mk3 s0 s0 (segment_length (cy_segment c))) (cy_radius c) a CW.
  Proof.
    intros Ha H. unfold cylinder_triangles. rewrite circle_indices_eq by lia. cbn [bind].
    rewrite circle_points_length, (Nat.mod_small (a + 1)) by lia. rewrite circle_indices_eq by lia. cbn [bind].
    rewrite (Nat.mod_small (a + 2)), (Nat.mod_small (2 * a + 1)) by lia.
    rewrite !usub_small by lia. replace (2 * a + 1 - (a + 2)) with (a - 1) by lia. rewrite Nat.eqb_refl.
    rewrite !geo_assert_true by reflexivity. cbn [bind].
    eexists. split; [|reflexivity]. f_equal. f_equal. unfold ytags. rewrite !map_app, !flat3_app.
    apply (f_equal2 (@app nat)); [rewrite !map_map; reflexivity|]. apply (f_equal2 (@app nat)).
    - rewrite !map_map. f_equal. apply map_ext_in. intros k Hk. apply in_seq in Hk. cbn [ytri map3 yenc].
      rewrite neg_neg by lia. apply (f_equal2 pair); [apply (f_equal2 pair); lia|]. unfold neg in *; cyc; lia.
    - replace a with (a - 1 + 1) at 9 by lia. rewrite seq_app, flat_map_app, !map_app, flat3_app.
      apply (f_equal2 (@app nat)).
      + pose proof (mantle_eq a W 0 H ltac:(lia)) as E. unfold neg in E at 1. cbn [Nat.eqb] in E.
        rewrite Nat.sub_0_r, !Nat.add_0_r in E. exact E.
      + cbn [seq flat_map map flat3 app ytri map3 yenc]. rewrite Nat.mod_small by lia.
        replace (nxt a (0 + (a - 1))) with 0 by (unfold nxt; cyc; lia).
        replace (neg a (0 + (a - 1))) with 1 by (unfold neg; cyc; lia).
        replace (neg a 0) with 0 by reflexivity.
        repeat (apply (f_equal2 cons); [lia|]). reflexivity.
  Qed.
End Buffers.
