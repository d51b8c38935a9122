(** The standard normal distribution function and the closed formulas built from it. *)
From Coq Require Import Reals.
From Coquelicot Require Import Coquelicot.
From Verif Require Import S_Prob.
Local Open Scope R_scope.

(** P(Z <= x); that it is this probability is [normal_cdf] in P_PriceMean.v. *)
Definition Phi (x : R) : R := 1 / 2 + RInt phi 0 x.

(** Black (1976) with forward price [F], strike [K] and total volatility [v] = sigma sqrt T
    (undiscounted). *)
Definition black_d1 (F K v : R) : R := (ln (F / K) + v * v / 2) / v.
Definition black_d2 (F K v : R) : R := black_d1 F K v - v.
Definition black_call (F K v : R) : R := F * Phi (black_d1 F K v) - K * Phi (black_d2 F K v).
Definition black_put (F K v : R) : R := K * Phi (- black_d2 F K v) - F * Phi (- black_d1 F K v).

(** Expected payoff of a one-price payoff on a lognormal price with mean [F] and total
    volatility [v]. *)
From Verif Require Import M_Payoff.
Definition lognormal_payoff (p : Payoff R) (F v : R) : R :=
  match p with
  | PVanilla Call K => black_call F K v
  | PVanilla _ K => black_put F K v
  | PDigital Call K => Phi (black_d2 F K v)
  | PDigital _ K => Phi (- black_d2 F K v)
  | PDoubleDigital KL KU => if Rle_dec KL KU then Phi (black_d2 F KL v) - Phi (black_d2 F KU v) else 0
  | PFloating _ => 0
  end.
Definition positive_strikes (p : Payoff R) : Prop :=
  match p with
  | PVanilla _ K | PDigital _ K => 0 < K
  | PDoubleDigital KL KU => 0 < KL /\ 0 < KU
  | PFloating _ => False
  end.
