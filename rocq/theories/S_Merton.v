(** Prices under lognormal jumps at the times of a Poisson process. *)
From Coq Require Import Reals.
From Verif Require Import M_Payoff S_Prob S_Normal.
Local Open Scope R_scope.

(** A Poisson number of jumps with mean [l]; given j of them the price at maturity is
    lognormal with mean F exp(j (muJ + sigmaJ^2 / 2)) and variance v2 + j sigmaJ^2 of the
    logarithm.  [q] is the expected payoff. *)
Definition jump_mixture (p : Payoff R) (F v2 l muJ sigmaJ q : R) : Prop :=
  is_Epoisson l (fun j => lognormal_payoff p (F * exp (INR j * (muJ + sigmaJ * sigmaJ / 2))) (sqrt (v2 + INR j * (sigmaJ * sigmaJ)))) q.

(** Mean relative size of a jump. *)
Definition jump_size (muJ sigmaJ : R) : R := exp (muJ + sigmaJ * sigmaJ / 2) - 1.

(** Merton (1976): [F] is the forward price, which the drift of the model keeps whatever the
    jumps, so each term starts from F exp(-lambda k T). *)
Definition merton_1976 (p : Payoff R) (F sigma T lambda muJ sigmaJ q : R) : Prop :=
  jump_mixture p (F * exp (- (lambda * jump_size muJ sigmaJ * T))) (sigma * sigma * T) (lambda * T) muJ sigmaJ q.
