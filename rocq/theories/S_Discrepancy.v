(** How evenly numbers fill the unit interval. *)
From Coq Require Import List Reals.
From Verif Require Import M_Payoff S_MonteCarlo.
Import ListNotations.
Local Open Scope R_scope.

(** The share of the numbers below [t]. *)
Definition share_below (us : list R) (t : R) : R := Rmean (map (fun u => if Rlt_dec u t then 1 else 0) us).

(** The star discrepancy of the numbers is at most [D]. *)
Definition discrepancy_at_most (us : list R) (D : R) : Prop :=
  forall t, 0 <= t <= 1 -> Rabs (share_below us t - t) <= D.

(** Total variation of a payoff over all prices, for the payoffs that have a finite one. *)
Definition payoff_variation (p : Payoff R) (V : R) : Prop :=
  match p with
  | PVanilla Call _ => False
  | PVanilla _ K => V = K
  | PDigital _ _ => V = 1
  | PDoubleDigital _ _ => V = 2
  | PFloating _ => False
  end.
