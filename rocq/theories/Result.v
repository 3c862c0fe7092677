(** * Outcomes of C++ calls

    [Throw] is a thrown exception, [Trap] a failed [GEO_ASSERT] in a build with
    assertions (src/include/Geometry/Utils/GeometryAssert.hpp, Assert.hpp), [UB]
    undefined behaviour (out-of-range element access, dereferencing an empty
    optional, ...), [Diverge] a loop that does not terminate. *)

Inductive res (A : Type) := Ok (a : A) | Throw | Trap | UB | Diverge.
Arguments Ok {A} a.
Arguments Throw {A}.
Arguments Trap {A}.
Arguments UB {A}.
Arguments Diverge {A}.

Definition bind {A B} (m : res A) (f : A -> res B) : res B :=
  match m with
  | Ok a => f a
  | Throw => Throw
  | Trap => Trap
  | UB => UB
  | Diverge => Diverge
  end.

Notation "'let*' x ':=' m 'in' k" := (bind m (fun x => k))
  (at level 200, x pattern, m at level 100, k at level 200, right associativity).

(** [GEO_ASSERT(b)]: does nothing when assertions are disabled. *)
Definition geo_assert (dbg b : bool) : res unit :=
  if dbg then (if b then Ok tt else Trap) else Ok tt.

Lemma Ok_inj {A} (a b : A) : Ok a = Ok b -> a = b.
Proof. intros H; now injection H. Qed.

Lemma geo_assert_true dbg b : b = true -> geo_assert dbg b = Ok tt.
Proof. intros ->; now destruct dbg. Qed.
Lemma geo_assert_off b : geo_assert false b = Ok tt.
Proof. reflexivity. Qed.
Lemma geo_assert_Ok dbg b u : geo_assert dbg b = Ok u -> dbg = false \/ b = true.
Proof. destruct dbg, b; cbn; intros H; auto; discriminate. Qed.

Lemma Some_inj {A} (a b : A) : Some a = Some b -> a = b.
Proof. congruence. Qed.
