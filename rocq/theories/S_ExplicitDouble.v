(** Vocabulary for the rounding error of the explicit finite-difference scheme. *)
From Coq Require Import Arith Reals.
From Flocq Require Import Core.
From Verif Require Import M_Num S_Double.
Local Open Scope R_scope.

(** A number of a size that occurs: between 2^-50 and 2^50. *)
Definition moderate (x : R) : Prop := bpow radix2 (-50) <= x <= bpow radix2 50.
Definition moderate64 (x : b64) : Prop := finite x /\ moderate (val x).
Definition moderate_or_zero (x : R) : Prop := x = 0 \/ moderate (Rabs x).

(** The explicit scheme for a put under the Black-Scholes equation, in exact arithmetic:
    volatility [sigma], rate [r], dividend yield [q], time step [dt], distance [h] of the
    nodes, strike [K], number [last] of the last node.  [put_grid i j] is the value at node
    [j] after [i] steps.  The distance of the nodes is absent from the weights because the
    coefficients of the equation grow with the node. *)
Section Reference.
Variables sigma r q dt h K : R.
Variable last : nat.
Definition weight_down (j : nat) : R := dt * (sigma * sigma * INR j * INR j - (r - q) * INR j) / 2.
Definition weight_stay (j : nat) : R := 1 - dt * (sigma * sigma * INR j * INR j + r).
Definition weight_up (j : nat) : R := dt * (sigma * sigma * INR j * INR j + (r - q) * INR j) / 2.
Fixpoint put_grid (i j : nat) : R :=
  match i with
  | O => Rmax (K - INR j * h) 0
  | S i' =>
      if Nat.eqb j 0 then K
      else if Nat.eqb j last then 0
      else weight_down j * put_grid i' (j - 1) + weight_stay j * put_grid i' j + weight_up j * put_grid i' (j + 1)
  end.
(** Every weight is in [0, 1]: convection is dominated by diffusion and the time step is
    small enough for the outermost inner node. *)
Definition steady : Prop :=
  0 <= r /\ Rabs (r - q) <= sigma * sigma /\
  dt * (sigma * sigma * INR (last - 1) * INR (last - 1) + r) <= 1.
End Reference.
