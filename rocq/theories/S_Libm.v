(** What a C library must provide for the statements about rounded logarithms. *)
From Coq Require Import Reals.
From Verif Require Import M_Num S_Double.
Local Open Scope R_scope.

(** On positive finite doubles the logarithm is finite and off by no more than 1e-15 (1 + |ln x|):
    for numbers below 1/e or above e this allows at least four units in the last place. *)
Definition accurate_log (flog : b64 -> b64) : Prop := forall x, finite x -> 0 < val x ->
  finite (flog x) /\ Rabs (val (flog x) - ln (val x)) <= 1/1000000000000000 * (1 + Rabs (ln (val x))).

(** Between -700 and 700 the exponential is finite with a relative error of at most 1e-15, which is
    more than four units in the last place. *)
Definition accurate_exp (fexp : b64 -> b64) : Prop := forall x, finite x -> Rabs (val x) <= 700 ->
  finite (fexp x) /\ Rabs (val (fexp x) - exp (val x)) <= 1/1000000000000000 * exp (val x).
