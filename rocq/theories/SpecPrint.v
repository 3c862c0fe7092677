(** * Reading printed mesh elements *)

From Coq Require Import List Arith Bool String.
From Verif Require Import Scalar Linal Result ModelMesh ModelPrint.
Import ListNotations.

Section Spec.
  Context {S : Scalar}.

  (** the piece printed right after the first occurrence of a label *)
  Fixpoint after (label : string) (out : list (piece S)) : option (piece S) :=
    match out with
    | Txt s :: r => if String.eqb s label then hd_error r else after label r
    | _ :: r => after label r
    | [] => None
    end.

  (** the coordinates in the order printed *)
  Definition printed_coords (out : list (piece S)) : list S :=
    flat_map (fun x => match x with Val c => [c] | _ => [] end) out.

  Definition coords_of (p : point S) : list S := [vnth s0 0 p; vnth s0 1 p; vnth s0 2 p].

  (** the number of lines *)
  Definition lines (out : list (piece S)) : nat :=
    List.length (filter (fun x => match x with Txt s => String.eqb s nl | _ => false end) out).
End Spec.
