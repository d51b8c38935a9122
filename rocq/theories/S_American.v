(** Specification vocabulary for the American Monte Carlo pricer. *)
From Coq Require Import List ZArith Reals Bool.
From Verif Require Import M_Num M_Outcome M_Stock M_Market M_Payoff M_Option M_Random M_Model
  S_MonteCarlo.
Import ListNotations.

Section Dates.
Context {T : Type} {num : Num T}.
Variable env : Env T.
Local Open Scope num_scope.
Local Open Scope sm_scope.

(** [f] on the elements of a list, in order, on one generator. *)
Fixpoint each {A B} (f : A -> SM T B) (l : list A) : SM T (list B) :=
  match l with
  | [] => sret []
  | x :: l' => y <- f x ;; ys <- each f l' ;; sret (y :: ys)
  end.

(** From the prices at date [n + 1], the prices at the dates n, ..., 1 (latest first): each
    price is bridged from the price of the same path at the next date. *)
Fixpoint bridged (m : StockModel T) (wm : Market T) (dt : T) (n : nat) (xs : list T) : SM T (list (list T)) :=
  match n with
  | O => sret []
  | S n' =>
      ys <- each (fun x => simulatePriceBackward env m wm x (nofZ (Z.of_nat n) * dt)
                             (nofZ (Z.of_nat n + 1) * dt)) xs ;;
      rest <- bridged m wm dt n' ys ;;
      sret (ys :: rest)
  end.

(** Prices of all paths at one date; date 1 has index 0 in a path. *)
Definition at_date (paths : list (list T)) (d : nat) : list T := map (fun p => nth (pred d) p n0) paths.

(** The simulated prices by date, latest date first; every element lists the prices of the
    N paths at that date. *)
Definition price_dates (m : StockModel T) (wm : Market T) (t : T) (N steps : nat) (bridge : bool)
    : SM T (list (list T)) :=
  if bridge then
    xs <- runs (simulatePriceAtMaturity env m wm t) N ;;
    earlier <- bridged m wm (t / nofZ (Z.of_nat steps)) (pred steps) xs ;;
    sret (xs :: earlier)
  else
    paths <- runs (simulatePrices env m wm t) N ;;
    sret (map (at_date paths) (rev (seq 1 steps))).
End Dates.

(** Does the pricer simulate backward?  (GBM on a pseudo-random generator) *)
Definition bridges {T} (m : StockModel T) (g : Gen T) : bool :=
  match gQuasi g, mdKind m with None, MGBM => true | _, _ => false end.

Local Open Scope R_scope.

(** Price of path [i] at date [d] (from 1), the dates listed latest first. *)
Definition price_at (dates : list (list R)) (d i : nat) : R :=
  nth i (nth (length dates - d) dates []) 0.

(** Is some path in the money at date [d]? *)
Definition some_itm (p : Payoff R) (dates : list (list R)) (d : nat) : bool :=
  existsb (fun x => if Rlt_dec 0 (terminal p x) then true else false) (nth (length dates - d) dates []).
(** The number of dates before [d] at which some path is in the money. *)
Definition itm_before (p : Payoff R) (dates : list (list R)) (d : nat) : nat :=
  length (filter (some_itm p dates) (seq 1 (pred d))).
