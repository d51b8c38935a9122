(** Numeric operations of C++ [double], as a record, and its two instances.

    The model files are written once over [Num T].  [Rnum] is exact real
    arithmetic; [B64] is IEEE-754 binary64 (round to nearest, ties to even), the
    arithmetic the compiled library uses.  [exp] and [log] come from the C math
    library, whose rounding is not specified; in [B64] they are parameters. *)
From Coq Require Import ZArith Reals Bool List.
From Flocq Require Import Core BinarySingleNaN.
Import ListNotations.

Class Num (T : Type) := mkNum {
  nadd : T -> T -> T;
  nsub : T -> T -> T;
  nmul : T -> T -> T;
  ndiv : T -> T -> T;
  nopp : T -> T;
  nltb : T -> T -> bool;      (* C++ <  *)
  nleb : T -> T -> bool;      (* C++ <= *)
  neqb : T -> T -> bool;      (* C++ == *)
  nsqrt : T -> T;             (* std::sqrt *)
  nexp : T -> T;              (* std::exp *)
  nlog : T -> T;              (* std::log *)
  nofZ : Z -> T               (* conversion of an integer to double *)
}.

Declare Scope num_scope.
Delimit Scope num_scope with num.
Infix "+" := nadd : num_scope.
Infix "-" := nsub : num_scope.
Infix "*" := nmul : num_scope.
Infix "/" := ndiv : num_scope.
Notation "- x" := (nopp x) : num_scope.
Infix "<?" := nltb : num_scope.
Infix "<=?" := nleb : num_scope.
Infix "=?" := neqb : num_scope.
(* C++ a > b and a >= b *)
Notation "x >? y" := (nltb y x) (only parsing) : num_scope.
Notation "x >=? y" := (nleb y x) (only parsing) : num_scope.

Section Derived.
Context {T : Type} {num : Num T}.
Local Open Scope num_scope.

Definition n0 : T := nofZ 0.
Definition n1 : T := nofZ 1.
Definition n2 : T := nofZ 2.

(** Decimal literal [m * 10^-e].  For every literal of the library both
    [m] and [10^e] are exactly representable, so in [B64] the correctly rounded
    quotient is the correctly rounded literal. *)
Definition lit (m : Z) (e : Z) : T := nofZ m / nofZ (10 ^ e).

Definition nhalf : T := lit 5 1.

(** std::max(a, b) = (a < b) ? b : a;  std::min(a, b) = (b < a) ? b : a. *)
Definition nmax (a b : T) : T := if a <? b then b else a.
Definition nmin (a b : T) : T := if b <? a then b else a.

(** std::fabs *)
Definition nabs (a : T) : T := if a <? n0 then - a else a.

(** std::accumulate(v.begin(), v.end(), 0.0) *)
Definition nsum (l : list T) : T := fold_left nadd l n0.

End Derived.

(** ** Exact real arithmetic *)
#[export] Instance Rnum : Num R := {|
  nadd := Rplus;
  nsub := Rminus;
  nmul := Rmult;
  ndiv := Rdiv;
  nopp := Ropp;
  nltb := Rlt_bool;
  nleb := Rle_bool;
  neqb := Req_bool;
  nsqrt := sqrt;
  nexp := exp;
  nlog := ln;
  nofZ := IZR
|}.

(** ** IEEE-754 binary64 *)
Definition b64 : Set := binary_float 53 1024.

#[export] Instance prec_gt_0_53 : Prec_gt_0 53 := eq_refl.
#[export] Instance prec_lt_emax_53 : Prec_lt_emax 53 1024 := eq_refl.

Definition b64_add : b64 -> b64 -> b64 := Bplus mode_NE.
Definition b64_sub : b64 -> b64 -> b64 := Bminus mode_NE.
Definition b64_mul : b64 -> b64 -> b64 := Bmult mode_NE.
Definition b64_div : b64 -> b64 -> b64 := Bdiv mode_NE.
Definition b64_opp : b64 -> b64 := Bopp.
Definition b64_ltb : b64 -> b64 -> bool := Bltb.
Definition b64_leb : b64 -> b64 -> bool := Bleb.
Definition b64_eqb : b64 -> b64 -> bool := Beqb.
Definition b64_sqrt : b64 -> b64 := Bsqrt mode_NE.
Definition b64_ofZ (z : Z) : b64 := binary_normalize 53 1024 _ _ mode_NE z 0 false.

(** The binary64 instance, for given [exp] and [log] of the C library. *)
Definition B64 (fexp flog : b64 -> b64) : Num b64 := {|
  nadd := b64_add;
  nsub := b64_sub;
  nmul := b64_mul;
  ndiv := b64_div;
  nopp := b64_opp;
  nltb := b64_ltb;
  nleb := b64_leb;
  neqb := b64_eqb;
  nsqrt := b64_sqrt;
  nexp := fexp;
  nlog := flog;
  nofZ := b64_ofZ
|}.

(** Used where neither [exp] nor [log] is called. *)
#[export] Instance B64_basic : Num b64 := B64 (fun x => x) (fun x => x).

Definition b64_nan : b64 := B754_nan.
Definition b64_inf : b64 := B754_infinity false.
