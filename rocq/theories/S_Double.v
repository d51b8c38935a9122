(** Reading a double as a number: the specification vocabulary for statements about
    IEEE arithmetic.  Infinities are read as +-2^1024, which lies beyond every finite
    double, so the numeric order of [val] is the order of non-NaN doubles. *)
From Coq Require Import ZArith Reals.
From Flocq Require Import Core BinarySingleNaN.
From Verif Require Import M_Num.
Local Open Scope R_scope.

Definition INF : R := bpow radix2 1024.

Definition notnan (x : b64) : Prop := is_nan x = false.
Definition finite (x : b64) : Prop := is_finite x = true.

Definition val (x : b64) : R :=
  match x with
  | B754_infinity false => INF
  | B754_infinity true => - INF
  | _ => B2R x
  end.

(** Rounding to nearest even in binary64, overflowing to +-INF. *)
Definition rnd (r : R) : R := round radix2 (FLT_exp (-1074) 53) ZnearestE r.
Definition clamp (r : R) : R := Rmax (- INF) (Rmin INF r).
Definition fl (r : R) : R := clamp (rnd r).
