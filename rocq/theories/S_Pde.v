(** What it means to solve the equation held by a Pde object, and the Black-Scholes value. *)
From Coq Require Import Reals.
From Coquelicot Require Import Coquelicot.
From Verif Require Import M_Num M_Outcome M_Market M_Payoff M_Fdm S_Normal.
Local Open Scope R_scope.

(** u_t = diffusion u_xx + convection u_x + reaction u - rightHandSide for t > 0 and x > 0,
    with the coefficients the object returns in market [w]. *)
Definition satisfies (p : Pde R) (w : Market R) (u : R -> R -> R) : Prop :=
  forall t x, 0 < t -> 0 < x -> exists (ux : R -> R) (ut uxx kd kc kr kf : R),
    is_derive (fun s => u s x) t ut /\ (forall y, 0 < y -> is_derive (u t) y (ux y)) /\ is_derive ux x uxx /\
    diffusion p w t x = Ok kd /\ convection p w t x = Ok kc /\ reaction p w t x = Ok kr /\ rightHandSide p w t x = Ok kf /\
    ut = kd * uxx + kc * ux x + kr * u t x - kf.

(** u(t, x) tends to [l] when t > 0 tends to 0. *)
Definition starts (u : R -> R -> R) (x l : R) : Prop :=
  forall eps, 0 < eps -> exists del, 0 < del /\ forall t, 0 < t < del -> Rabs (u t x - l) < eps.

(** The Black-Scholes value of a payoff: volatility, rate, dividend yield; time to maturity, spot. *)
Definition bs_value (sigma r c : R) (pay : Payoff R) (t x : R) : R :=
  exp (- r * t) * lognormal_payoff pay (x * exp ((r - c) * t)) (sigma * sqrt t).

(** Prices at which the payoff does not jump. *)
Definition off_jump (pay : Payoff R) (x : R) : Prop :=
  match pay with
  | PDigital _ K => x <> K
  | PDoubleDigital KL KU => x <> KL /\ x <> KU
  | _ => True
  end.
