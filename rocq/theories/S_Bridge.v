(** One path drawn from its end backwards, as the American pricer does on every path
    (mc_american.cpp:109-126), and the joint moments of the prices of a path. *)
From Coq Require Import List ZArith Reals.
From Verif Require Import M_Num M_Outcome M_Market M_Random M_Model.
Import ListNotations.
Local Open Scope R_scope.

(** The prices of the dates n, n-1, ..., 1 before the price [x] of date n + 1. *)
Fixpoint backwards (env : Env R) (m : StockModel R) (w : Market R) (dt : R) (n : nat) (x : R) (later : list R) : SM R (list R) :=
  match n with
  | O => sret (x :: later)
  | Datatypes.S n' => sbind (simulatePriceBackward env m w x (IZR (Z.of_nat n) * dt) (IZR (Z.of_nat n + 1) * dt))
                        (fun y => backwards env m w dt n' y (x :: later))
  end.
Definition bridge_path (env : Env R) (m : StockModel R) (w : Market R) (t : R) : SM R (list R) := fun g =>
  sbind (simulatePriceAtMaturity env m w t)
    (fun x => backwards env m w (t / IZR (getDim g)) (Z.to_nat (getDim g) - 1) x []) g.

(** The price of index i to the power a(i), i = k, k+1, ..., multiplied. *)
Fixpoint powers (a : nat -> R) (k : nat) (path : list R) : R :=
  match path with [] => 1 | x :: path' => exp (a k * ln x) * powers a (Datatypes.S k) path' end.

Fixpoint sum_to (n : nat) (f : nat -> R) : R :=
  match n with O => 0 | Datatypes.S n' => sum_to n' f + f n' end.

(** Their mean when the logarithms are jointly normal with mean ln S + mu t(i) and
    covariance sigma^2 min(t(i), t(j)). *)
Definition brownian_moment (S mu sigma : R) (t : nat -> R) (a : nat -> R) (n : nat) : R :=
  exp (sum_to n (fun i => a i * (ln S + mu * t i)) +
       sigma * sigma / 2 * sum_to n (fun i => sum_to n (fun j => a i * a j * Rmin (t i) (t j)))).
