(** * Scalar types

    The C++ code is a collection of templates over the floating point type
    ([T] / [TFloat], e.g. [float] or [double]).  The model is likewise written
    over a record [Scalar] that collects the operators the code applies to
    values of that type.  Three instances are given:

    - [RS M]   exact real arithmetic; [M] is [std::numeric_limits<T>::max()]
               (rounding is not modelled by this instance);
    - [XS]     exact arithmetic on extended reals with infinities and NaN;
    - [IEEE p e ..] any IEEE-754 binary format, round to nearest even, through
               Flocq ([B64] is [double], [B32] is [float]).  The values of cos,
               sin and atan are not fixed by IEEE-754 and are arguments of the
               instance. *)

From Coq Require Import ZArith Reals Lra Bool.
From Flocq Require Import IEEE754.BinarySingleNaN.

Record Scalar := mkScalar {
  car :> Type;
  s0 : car;                         (* T(0) *)
  s1 : car;                         (* T(1) *)
  sadd : car -> car -> car;
  ssub : car -> car -> car;
  smul : car -> car -> car;
  sdiv : car -> car -> car;
  sopp : car -> car;
  sabs : car -> car;                (* std::abs *)
  ssqrt : car -> car;               (* std::sqrt *)
  sltb : car -> car -> bool;        (* operator <  *)
  sleb : car -> car -> bool;        (* operator <= *)
  seqb : car -> car -> bool;        (* operator == *)
  sofnat : nat -> car;              (* static_cast<T>(unsigned) *)
  smax : car;                       (* numeric_limits<T>::max() *)
  slowest : car;                    (* numeric_limits<T>::lowest() *)
  sinf : car;                       (* numeric_limits<T>::infinity() *)
  scos : car -> car;
  ssin : car -> car;
  satan : car -> car;
  spi : car                         (* linal::PI<T> *)
}.

Arguments s0 {_}.
Arguments s1 {_}.
Arguments sadd {_} _ _.
Arguments ssub {_} _ _.
Arguments smul {_} _ _.
Arguments sdiv {_} _ _.
Arguments sopp {_} _.
Arguments sabs {_} _.
Arguments ssqrt {_} _.
Arguments sltb {_} _ _.
Arguments sleb {_} _ _.
Arguments seqb {_} _ _.
Arguments sofnat {_} _.
Arguments smax {_}.
Arguments slowest {_}.
Arguments sinf {_}.
Arguments scos {_} _.
Arguments ssin {_} _.
Arguments satan {_} _.
Arguments spi {_}.

Declare Scope scalar_scope.
Delimit Scope scalar_scope with S.
Notation "a + b" := (sadd a b) : scalar_scope.
Notation "a - b" := (ssub a b) : scalar_scope.
Notation "a * b" := (smul a b) : scalar_scope.
Notation "a / b" := (sdiv a b) : scalar_scope.
Notation "- a" := (sopp a) : scalar_scope.
Notation "a <? b" := (sltb a b) : scalar_scope.
Notation "a <=? b" := (sleb a b) : scalar_scope.
Notation "a =? b" := (seqb a b) : scalar_scope.

(** [std::max(a,b)] is [(a < b) ? b : a]; [std::min(a,b)] is [(b < a) ? b : a]
    (C++ standard, [alg.min.max]). *)
Definition std_max {S : Scalar} (a b : S) : S := if (a <? b)%S then b else a.
Definition std_min {S : Scalar} (a b : S) : S := if (b <? a)%S then b else a.

(** ** Exact reals *)

Definition Rltb (a b : R) : bool := if Rlt_dec a b then true else false.
Definition Rleb (a b : R) : bool := if Rle_dec a b then true else false.
Definition Reqb (a b : R) : bool := if Req_EM_T a b then true else false.

Definition RS (M : R) : Scalar := {|
  car := R;
  s0 := 0%R; s1 := 1%R;
  sadd := Rplus; ssub := Rminus; smul := Rmult; sdiv := Rdiv;
  sopp := Ropp; sabs := Rabs; ssqrt := sqrt;
  sltb := Rltb; sleb := Rleb; seqb := Reqb;
  sofnat := INR;
  smax := M; slowest := (- M)%R; sinf := M;
  scos := cos; ssin := sin; satan := atan; spi := PI |}.
Canonical Structure RS.

Lemma Rltb_true a b : Rltb a b = true <-> (a < b)%R.
Proof. unfold Rltb; destruct (Rlt_dec a b); split; intros; auto; discriminate. Qed.
Lemma Rltb_false a b : Rltb a b = false <-> (b <= a)%R.
Proof. unfold Rltb; destruct (Rlt_dec a b); split; intros; auto; try discriminate; lra. Qed.
Lemma Rleb_true a b : Rleb a b = true <-> (a <= b)%R.
Proof. unfold Rleb; destruct (Rle_dec a b); split; intros; auto; discriminate. Qed.
Lemma Rleb_false a b : Rleb a b = false <-> (b < a)%R.
Proof. unfold Rleb; destruct (Rle_dec a b); split; intros; auto; try discriminate; lra. Qed.
Lemma Reqb_true a b : Reqb a b = true <-> a = b.
Proof. unfold Reqb; destruct (Req_EM_T a b); split; intros; auto; try discriminate; contradiction. Qed.
Lemma Reqb_false a b : Reqb a b = false <-> a <> b.
Proof. unfold Reqb; destruct (Req_EM_T a b); split; intros; auto; try discriminate; contradiction. Qed.

(** ** Extended reals: exact arithmetic with infinities and NaN.

    Signed zeros are not distinguished, so a division by zero yields [XNaN]
    (in IEEE-754 it would be an infinity whose sign depends on the sign of the
    zero, or NaN). *)

Inductive xR := Fin (r : R) | PInf | NInf | XNaN.

Definition xsign (r : R) : xR -> xR -> xR -> xR :=
  fun neg zer pos => if Rlt_dec r 0 then neg else if Req_EM_T r 0 then zer else pos.

Definition xadd (a b : xR) : xR :=
  match a, b with
  | Fin x, Fin y => Fin (x + y)
  | XNaN, _ | _, XNaN => XNaN
  | PInf, NInf | NInf, PInf => XNaN
  | PInf, _ | _, PInf => PInf
  | NInf, _ | _, NInf => NInf
  end.

Definition xopp (a : xR) : xR :=
  match a with Fin x => Fin (- x) | PInf => NInf | NInf => PInf | XNaN => XNaN end.

Definition xsub (a b : xR) : xR :=
  match a, b with
  | Fin x, Fin y => Fin (x - y)
  | _, _ => xadd a (xopp b)
  end.

Definition xmul (a b : xR) : xR :=
  match a, b with
  | Fin x, Fin y => Fin (x * y)
  | XNaN, _ | _, XNaN => XNaN
  | PInf, PInf | NInf, NInf => PInf
  | PInf, NInf | NInf, PInf => NInf
  | Fin x, PInf | PInf, Fin x => xsign x NInf XNaN PInf
  | Fin x, NInf | NInf, Fin x => xsign x PInf XNaN NInf
  end.

Definition xdiv (a b : xR) : xR :=
  match a, b with
  | Fin x, Fin y => if Req_EM_T y 0 then XNaN else Fin (x / y)
  | XNaN, _ | _, XNaN => XNaN
  | PInf, Fin y => xsign y NInf XNaN PInf
  | NInf, Fin y => xsign y PInf XNaN NInf
  | Fin _, _ => Fin 0
  | _, _ => XNaN
  end.

Definition xabs (a : xR) : xR :=
  match a with Fin x => Fin (Rabs x) | PInf | NInf => PInf | XNaN => XNaN end.

Definition xsqrt (a : xR) : xR :=
  match a with
  | Fin x => if Rlt_dec x 0 then XNaN else Fin (sqrt x)
  | PInf => PInf
  | _ => XNaN
  end.

Definition xltb (a b : xR) : bool :=
  match a, b with
  | Fin x, Fin y => Rltb x y
  | XNaN, _ | _, XNaN => false
  | NInf, NInf | PInf, _ | _, NInf => false
  | _, _ => true
  end.

Definition xeqb (a b : xR) : bool :=
  match a, b with
  | Fin x, Fin y => Reqb x y
  | PInf, PInf | NInf, NInf => true
  | _, _ => false
  end.

Definition xleb (a b : xR) : bool := xltb a b || xeqb a b.

Definition xlift (f : R -> R) (a : xR) : xR :=
  match a with Fin x => Fin (f x) | _ => XNaN end.

Definition XS (M : R) : Scalar := {|
  car := xR;
  s0 := Fin 0; s1 := Fin 1;
  sadd := xadd; ssub := xsub; smul := xmul; sdiv := xdiv;
  sopp := xopp; sabs := xabs; ssqrt := xsqrt;
  sltb := xltb; sleb := xleb; seqb := xeqb;
  sofnat := fun n => Fin (INR n);
  smax := Fin M; slowest := Fin (- M); sinf := PInf;
  scos := xlift cos; ssin := xlift sin; satan := xlift atan; spi := Fin PI |}.

(** ** IEEE-754 binary formats: precision [p] (hidden bit included), largest
    exponent [e]; rounding to nearest even.  [float] is (24, 128), [double] is
    (53, 1024), x87 [long double] is (64, 16384). *)

Section Ieee.
  Context (p e : Z) (Hp : FLX.Prec_gt_0 p) (He : Prec_lt_emax p e).

  (** [ieee_pow m k] is the number nearest to [m * 2^k]. *)
  Definition ieee_pow (m k : Z) : binary_float p e := @binary_normalize p e Hp He mode_NE m k false.

  Definition IEEE (fcos fsin fatan : binary_float p e -> binary_float p e) (fpi : binary_float p e) : Scalar := {|
    car := binary_float p e;
    s0 := B754_zero false; s1 := ieee_pow 1 0;
    sadd := @Bplus p e Hp He mode_NE;
    ssub := @Bminus p e Hp He mode_NE;
    smul := @Bmult p e Hp He mode_NE;
    sdiv := @Bdiv p e Hp He mode_NE;
    sopp := @Bopp p e;
    sabs := @Babs p e;
    ssqrt := @Bsqrt p e Hp He mode_NE;
    sltb := @Bltb p e; sleb := @Bleb p e; seqb := @Beqb p e;
    sofnat := fun n => ieee_pow (Z.of_nat n) 0;
    smax := @Bmax_float p e Hp He;
    slowest := Bopp (@Bmax_float p e Hp He);
    sinf := B754_infinity false;
    scos := fcos; ssin := fsin; satan := fatan; spi := fpi |}.
End Ieee.

Definition prec53 : FLX.Prec_gt_0 53 := eq_refl.
Definition prec_emax64 : Prec_lt_emax 53 1024 := eq_refl.

Definition b64 := binary_float 53 1024.
Definition b64_pow (m k : Z) : b64 := ieee_pow 53 1024 prec53 prec_emax64 m k.
Definition b64_ofZ (z : Z) : b64 := b64_pow z 0.
Definition B64 (fcos fsin fatan : b64 -> b64) (fpi : b64) : Scalar :=
  IEEE 53 1024 prec53 prec_emax64 fcos fsin fatan fpi.

Definition prec24 : FLX.Prec_gt_0 24 := eq_refl.
Definition prec_emax32 : Prec_lt_emax 24 128 := eq_refl.
Definition b32 := binary_float 24 128.
Definition B32 (fcos fsin fatan : b32 -> b32) (fpi : b32) : Scalar :=
  IEEE 24 128 prec24 prec_emax32 fcos fsin fatan fpi.

(** ** Integers: a further exact instance ([int] coordinates without overflow,
    integer square root), used to compute concrete examples. *)
Definition ZS : Scalar := {|
  car := Z;
  s0 := 0%Z; s1 := 1%Z;
  sadd := Z.add; ssub := Z.sub; smul := Z.mul; sdiv := Z.quot;
  sopp := Z.opp; sabs := Z.abs; ssqrt := Z.sqrt;
  sltb := Z.ltb; sleb := Z.leb; seqb := Z.eqb;
  sofnat := Z.of_nat;
  smax := 1000000%Z; slowest := (-1000000)%Z; sinf := 1000000%Z;
  scos := fun x => x; ssin := fun x => x; satan := fun x => x; spi := 3%Z |}.
