(** * Specification of the sweep in floating point *)

From Coq Require Import Reals ZArith List.
From Flocq Require Import Core.Zaux Core.Raux IEEE754.BinarySingleNaN.
From Verif Require Import Scalar Linal SpecReal SpecIEEE SpecFloatErr SpecFloatPlane ModelShapes ModelSweep SpecSweep.
Local Open Scope R_scope.

(** the segment and the event with exact coordinates *)
Definition exact_segment (M : R) {p e Hp He f g h pi} (s : segment (IEEE p e Hp He f g h pi) 2) : segment (RS M) 2 :=
  @mkSegment (RS M) 2 (@vreal p e 2 (g_source s)) (@vreal p e 2 (g_target s)).
Definition exact_event (M : R) {p e Hp He f g h pi} (v : event (IEEE p e Hp He f g h pi)) : event (RS M) :=
  @mkEvent (RS M) (@vreal p e 2 (ev_point v)) (ev_id v) (ev_start v).

Section Clear.
  Context (p e : Z) {M : R}.
  Implicit Types s : segment (RS M) 2.

  (** extent of a segment in both directions *)
  Definition run s : R := fst (g_target s : vec R 2) - fst (g_source s : vec R 2).
  Definition rise s : R := fst (snd (g_target s : vec R 2)) - fst (snd (g_source s : vec R 2)).
  (** from the source to the point at [x] *)
  Definition climb s (x : R) : R := Rabs (rise s * ((x - fst (g_source s : vec R 2)) / run s)).

  (** error of the height at [x]: a few units in the last place of what is added *)
  Definition height_bound s (x : R) : R :=
    uround p * (Rabs (fst (snd (g_source s : vec R 2))) + 8 * climb s x) + (3 / Rabs (run s) + 2) * uflow p e.
  (** no intermediate result comes near the overflow threshold [2^e] *)
  Definition height_room s (x : R) : Prop :=
    Rabs (run s) <= bpow radix2 (e - 2) /\ Rabs (rise s) <= bpow radix2 (e - 2) /\ Rabs (x - fst (g_source s : vec R 2)) <= bpow radix2 (e - 2) /\
    Rabs (rise s) * Rabs (x - fst (g_source s : vec R 2)) <= bpow radix2 (e - 3) /\
    Rabs (fst (snd (g_source s : vec R 2))) + 2 * climb s x + 2 * (uflow p e / Rabs (run s)) <= bpow radix2 (e - 3).

  (** the greater one of the x coordinates where the segments begin *)
  Definition first_x s s' : R :=
    Rmax (Rmin (fst (g_source s : vec R 2)) (fst (g_target s : vec R 2))) (Rmin (fst (g_source s' : vec R 2)) (fst (g_target s' : vec R 2))).
  (** there, the heights differ by more than their errors *)
  Definition clear_order s s' : Prop :=
    height_room s (first_x s s') /\ height_room s' (first_x s s') /\
    height_bound s (first_x s s') + height_bound s' (first_x s s') < Rabs (height s (first_x s s') - height s' (first_x s s')).

  (** error of the parameter of the intersection on the first line *)
  Definition param_bound (a d a' d' : vec R 2) (T : R) : R :=
    plane_bound p e a' (perp d') a d T / (Rabs (det2 d d') - slope_bound p e (perp d') d).

  (** two segments whose lines intersect clearly inside both; [t] is the tolerance of
      the comparisons, [w] bounds the error of the point *)
  Definition clear_hit (t w : R) s s' : Prop :=
    let a := g_source s : vec R 2 in let d := rsub (g_target s) a in
    let a' := g_source s' : vec R 2 in let d' := rsub (g_target s') a' in
    exists T T', along a d T = along a' d' T' /\ crossing_scene p e a d a' d' /\
      t + slope_bound p e (perp d') d < Rabs (det2 d d') /\
      param_bound a d a' d' T <= T <= 1 - param_bound a d a' d' T /\
      param_bound a' d' a d T' <= T' <= 1 - param_bound a' d' a d T' /\
      rnorm a <= bpow radix2 (e - 3) /\ rnorm a' <= bpow radix2 (e - 3) /\ rnorm d <= bpow radix2 (e - 5) /\ rnorm d' <= bpow radix2 (e - 5) /\
      point_bound p e a d 1 + rnorm d * param_bound a d a' d' T <= w /\
      point_bound p e a d 1 + gap_bound p e a d a' d' 1 1 + point_bound p e a' d' 1 <= w.
  (** two segments whose lines intersect clearly outside one of them *)
  Definition clear_miss (t : R) s s' : Prop :=
    let a := g_source s : vec R 2 in let d := rsub (g_target s) a in
    let a' := g_source s' : vec R 2 in let d' := rsub (g_target s') a' in
    exists T T', along a d T = along a' d' T' /\ crossing_scene p e a d a' d' /\
      (T + param_bound a d a' d' T < - t \/ 1 + t + param_bound a d a' d' T < T \/
       T' + param_bound a' d' a d T' < - t \/ 1 + t + param_bound a' d' a d T' < T').
  (** two horizontal segments *)
  Definition both_level s s' : Prop :=
    let d := rsub (g_target s : vec R 2) (g_source s) in let d' := rsub (g_target s' : vec R 2) (g_source s') in
    rise s = 0 /\ rise s' = 0 /\ rnorm d <= bpow radix2 (e - 2) /\ rnorm d' <= bpow radix2 (e - 2) /\ rnorm d * rnorm d' <= bpow radix2 (e - 3).

  (** segments of which rounding cannot change the order or the answer whether two of
      them meet *)
  Record clear_scene (t w : R) (segs : list (segment (RS M) 2)) : Prop := mkClear {
    cs_run : forall s, In s segs -> run s <> 0;
    cs_order : forall i j s s', i <> j -> nth_error segs i = Some s -> nth_error segs j = Some s' -> clear_order s s';
    cs_pair : forall i j s s', i <> j -> nth_error segs i = Some s -> nth_error segs j = Some s' ->
      clear_hit t w s s' \/ clear_miss t s s' \/ both_level s s' }.
End Clear.
