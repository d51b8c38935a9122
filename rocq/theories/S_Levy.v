(** Specification of C122: the law of a path whose logarithm is a Levy process.

    A Levy process X has independent and stationary increments and is described by its
    exponent psi: E exp(u (X(t+h) - X(t))) = exp(h psi(u)).  For prices S exp(X) at the
    dates h, 2h, ..., nh and any exponents a(0), ..., a(n-1), the mean of the product of the
    powers of the prices follows: step j moves the prices from date j on, whose exponents
    add up to A - (a(0) + ... + a(j-1)). *)
From Coq Require Import List ZArith Reals.
From Verif Require Import M_Num M_Outcome M_Random M_Model S_Model S_Prob S_Expect S_Bridge.
Local Open Scope R_scope.

Definition tail_sum (a : nat -> R) (n j : nat) : R := sum_to n a - sum_to j a.
Definition levy_moment (S h : R) (psi : R -> R) (a : nat -> R) (n : nat) : R :=
  exp (sum_to n a * ln S + h * sum_to n (fun j => psi (tail_sum a n j))).

(** The exponents of the literature.  [mu] is the drift of the logarithm. *)
Definition brownian_exponent (mu sigma u : R) : R := mu * u + sigma * sigma * (u * u) / 2.
(** Jumps of intensity lambda whose exponentials have the mean [M u] at the power u. *)
Definition jump_exponent (lambda : R) (M : R -> R) (u : R) : R := lambda * (M u - 1).
(** Merton: normal jumps. *)
Definition normal_jump (muJ sigmaJ u : R) : R := exp (muJ * u + sigmaJ * sigmaJ * (u * u) / 2).
(** Kou: with probability p an upward exponential jump of rate eta1, otherwise a downward
    one of rate eta2; finite for -eta2 < u < eta1. *)
Definition double_exponential (p eta1 eta2 u : R) : R := p * (eta1 / (eta1 - u)) + (1 - p) * (eta2 / (eta2 + u)).
(** Variance gamma: a Brownian motion with drift theta run by a gamma clock of mean rate 1
    and variance rate nu; finite when the argument of ln is positive. *)
Definition clock_arg (theta sigma u : R) : R := theta * u + sigma * sigma * (u * u) / 2.
Definition vg_exponent (nu theta sigma u : R) : R := - (ln (1 - nu * clock_arg theta sigma u) / nu).

(** The paths of [c] on the generator [g] have the law of S exp(X) at the dates h, 2h, ...,
    as far as the moments with exponents in [dom] can tell. *)
Definition levy_paths (c : Env R -> SM R (list R)) (g : Gen R) (S h : R) (dom : R -> Prop) (psi : R -> R) : Prop :=
  forall a, let n := Z.to_nat (getDim g) in
  (forall j, (j < n)%nat -> dom (tail_sum a n j)) ->
  is_mean c g (powers a 0) (levy_moment S h psi a n).
