(** Vocabulary for the statements on the linear systems and the warnings of the
    finite-difference solvers. *)
From Coq Require Import List ZArith Reals.
From Verif Require Import S_Fdm.
Local Open Scope R_scope.

(** The operator of the Black-Scholes equation, whatever the right-hand side and the
    boundary values: volatility, rate, dividend yield. *)
Definition black_scholes (k : Coefs R) (sigma r c : R) : Prop :=
  forall t x, kd k t x = sigma * sigma * x * x / 2 /\ kc k t x = (r - c) * x /\ kr k t x = - r.
