(** * Properties of handles (C39) *)

From Coq Require Import ZArith Bool Lia.
From Verif Require Import ModelHandle.
Local Open Scope Z_scope.

(** C39: the six comparison operators agree with the order of the values, which
    is a strict total order on handles. *)
Theorem C39_total_order :
  (forall a b,
      (handle_lt a b = true <-> h_value a < h_value b) /\ (handle_gt a b = true <-> h_value b < h_value a) /\
      (handle_le a b = true <-> h_value a <= h_value b) /\ (handle_ge a b = true <-> h_value b <= h_value a) /\
      (handle_eq a b = true <-> a = b) /\ (handle_ne a b = true <-> a <> b)) /\
  (forall a, handle_lt a a = false) /\
  (forall a b c, handle_lt a b = true -> handle_lt b c = true -> handle_lt a c = true) /\
  (forall a b, handle_lt a b = true \/ a = b \/ handle_lt b a = true).
Proof.
  assert (E : forall a b : handle, a = b <-> h_value a = h_value b).
  { intros [a] [b]; cbn; split; [intros H; congruence|intros ->; reflexivity]. }
  unfold handle_gt, handle_le, handle_ge, handle_ne, handle_lt, handle_eq.
  split; [|split; [|split]]; intros;
    rewrite ?negb_true_iff, ?Z.ltb_lt, ?Z.ltb_ge, ?Z.eqb_eq, ?Z.eqb_neq, ?E in *; lia.
Qed.
Print Assumptions C39_total_order.

Example C39_order_example :
  handle_lt (mkHandle 3) (mkHandle 5) = true /\ handle_ge (mkHandle 5) (mkHandle 3) = true /\
  handle_le (mkHandle 5) (mkHandle 3) = false /\ handle_ne (mkHandle 5) (mkHandle 3) = true.
Proof. auto. Qed.

(** C39: exactly one value of the type is invalid, its maximum. *)
Theorem C39_unique_invalid :
  forall tmin tmax : Z, tmin <= tmax ->
    exists h, tmin <= h_value h <= tmax /\ handle_is_valid tmax h = false /\
      (forall x, tmin <= x <= tmax -> x <= h_value h) /\
      forall h', tmin <= h_value h' <= tmax -> (handle_is_valid tmax h' = false <-> h' = h).
Proof.
  intros lo hi H. exists (mkHandle hi). cbn. split; [lia|]. unfold handle_is_valid, invalidHandles. cbn.
  split; [rewrite Z.eqb_refl; reflexivity|]. split; [intros; lia|].
  intros [v] _. cbn. rewrite negb_false_iff, Z.eqb_eq. split; [congruence|]. intros E; injection E; auto.
Qed.
Print Assumptions C39_unique_invalid.

(** C39: the default constructed vertex, halfedge and facet indices are invalid,
    and they are above every valid handle. *)
Theorem C39_index_default_invalid :
  forall tmin tmax : Z, tmin <= tmax ->
    handle_is_valid tmax (index_default tmax) = false /\
    forall h, tmin <= h_value h <= tmax -> handle_is_valid tmax h = true -> handle_lt h (index_default tmax) = true.
Proof.
  intros lo hi H. unfold handle_is_valid, handle_lt, index_default, invalidHandles. cbn. rewrite Z.eqb_refl.
  split; [reflexivity|]. intros h Hh. rewrite negb_true_iff, Z.eqb_neq, Z.ltb_lt. lia.
Qed.
Print Assumptions C39_index_default_invalid.

(** C39 is false of Handle itself: for every integer type but the one with
    maximum 0, a default constructed handle is valid. *)
Theorem C39_default_invalid_refuted :
  forall tmax : Z, 0 < tmax -> handle_is_valid tmax handle_default = true.
Proof.
  intros hi H. unfold handle_is_valid, handle_default, nullHandle, invalidHandles. cbn [h_value].
  rewrite negb_true_iff, Z.eqb_neq. lia.
Qed.
Print Assumptions C39_default_invalid_refuted.

(** std::uint8_t and std::size_t meet the hypotheses *)
Example C39_example : 0 <= 255 /\ 0 < 255 /\ 0 <= 2 ^ 64 - 1 /\ 0 < 2 ^ 64 - 1 /\
  handle_is_valid 255 (mkHandle 254) = true /\ handle_is_valid 255 (mkHandle 255) = false.
Proof. repeat split; reflexivity || lia. Qed.
