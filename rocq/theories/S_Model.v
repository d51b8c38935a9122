(** Specification vocabulary for the stock models. *)
From Coq Require Import String List ZArith Reals Bool.
From Verif Require Import M_Num M_Outcome M_Stock M_Market M_Random M_Model S_Random.
Import ListNotations.
Local Open Scope R_scope.

Definition Rsum (l : list R) : R := fold_right Rplus 0 l.

(** The coupon, zero when there is none. *)
Definition dividend (d : StockData R) : R := match c_ d with Some c => c | None => 0 end.

(** Geometric Brownian motion at the times dt, 2 dt, ..., from the normal increments. *)
Definition gbm_solution (S0 r c sigma dt : R) (zs : list R) : list R :=
  map (fun k => S0 * exp ((r - c - sigma * sigma / 2) * (INR k * dt)
                          + sigma * sqrt dt * Rsum (firstn k zs)))
      (seq 1 (length zs)).

(** Full-truncation CIR steps. *)
Definition euler_step (V dt kappa theta sigma_v z : R) : R :=
  V + kappa * (theta - Rmax V 0) * dt + sigma_v * sqrt (Rmax V 0 * dt) * z.
Definition milstein_step (V dt kappa theta sigma_v z : R) : R :=
  euler_step V dt kappa theta sigma_v z + sigma_v * sigma_v * dt / 4 * (z * z - 1).

(** Mean of a std::gamma_distribution (shape times scale). *)
Definition std_gamma_mean (shape scale : R) : R := shape * scale.

(** An environment that answers the draws of a fresh pseudo-random generator from a
    list, in order (and every Poisson request with the jump counts of another list). *)
Definition is_draw {T} (e : Ev T) : bool := match e with EvDraw _ => true | _ => false end.
Definition ndraws {T} (h : list (Ev T)) : nat := length (filter is_draw h).
Definition env_list (zs : list R) (ns : list Z) : Env R :=
  mkEnv (fun _ h => nth (Nat.pred (ndraws h)) zs 0)
        (fun _ h => nth (Nat.pred (ndraws h)) ns 0%Z)
        (fun _ _ _ _ _ => 0) (fun _ => 1).
