(** Vocabulary for the rounding errors of a geometric Brownian path. *)
From Coq Require Import List ZArith Reals.
From Verif Require Import M_Num M_Outcome M_Stock M_Payoff M_Option M_Random S_Double S_Random S_Model S_MonteCarlo.
Import ListNotations.
Local Open Scope R_scope.

(** [x] equals [y] up to a factor between exp(-L) and exp(L). *)
Definition within (L x y : R) : Prop := y * exp (- L) <= x <= y * exp L.

(** How large the exponent of one step can be: the sum of the sizes of its terms. *)
Definition step_size (r c sigma dt z : R) : R :=
  (Rabs r + Rabs c + sigma * sigma / 2) * dt + sigma * sqrt dt * Rabs z.

(** A price between exp(-200) and exp(200). *)
Definition ordinary_price (x : R) : Prop := exp (- 200) <= x <= exp 200.

(** Inputs of ordinary size: rates of at most 100, a volatility of at most 10, time steps
    between 1e-12 and 1000 years and a spot price between exp(-200) and exp(200). *)
Definition ordinary (S0 r c sigma t : b64) (n : Z) : Prop :=
  finite S0 /\ finite r /\ finite c /\ finite sigma /\ finite t /\
  ordinary_price (val S0) /\ Rabs (val r) <= 100 /\ Rabs (val c) <= 100 /\ 0 <= val sigma <= 10 /\
  1/1000000000000 <= val t / IZR n <= 1000.

(** A random number with which the step is of ordinary size too. *)
Definition ordinary_draw (r c sigma dt : R) (z : b64) : Prop :=
  finite z /\ Rabs (val z) <= 100 /\ step_size r c sigma dt (val z) <= 300.

(** The error allowed to the logarithm of the price after the draws [zs]. *)
Definition log_error (r c sigma dt : R) (zs : list R) : R :=
  12/10000000000000000 * Rsum (map (fun z => 1 + step_size r c sigma dt z) zs).

(** value_or(0.0) of the dividend yield *)
Definition yield (d : StockData b64) : b64 := match c_ d with Some c => c | None => b64_ofZ 0 end.

(** [drawn env n g zss g']: from state [g], each path asks for [n] standard normal numbers; the
    generator returns the lists [zss] and ends in state [g']. *)
Fixpoint drawn {num : Num b64} (env : Env b64) (n : nat) (g : Gen b64) (zss : list (list b64)) (g' : Gen b64) : Prop :=
  match zss with
  | [] => g' = g
  | zs :: rest => exists g1, length zs = n /\
      draws env (repeat DStdNormal n) (snd (new_dist DStdNormal g)) = (map Ok zs, g1) /\ drawn env n g1 rest g'
  end.

(** What the option compares on an exact path: the price it buys or sells, and the price it is
    exchanged against. *)
Definition legs (o : Option b64) (path : list R) : R * R :=
  match optKind o, optPayoff o with
  | European, PVanilla _ K => (last path 0, val K)
  | ArithmeticAsian, PVanilla _ K => (Rmean path, val K)
  | FixedLookback, PVanilla ty K => (match ty with Call => lmax path | _ => lmin path end, val K)
  | FloatingLookback, PFloating ty => (last path 0, match ty with Call => lmin path | _ => lmax path end)
  | _, _ => (0, 0)
  end.
(** European, arithmetic Asian and lookback options with a strike of ordinary size. *)
Definition continuous_option (o : Option b64) : Prop :=
  match optKind o, optPayoff o with
  | (European | ArithmeticAsian | FixedLookback), PVanilla _ K => finite K /\ 0 <= val K <= exp 200
  | FloatingLookback, PFloating _ => True
  | _, _ => False
  end.
(** The payoff of a path and the sum of the two prices it is the difference of. *)
Definition exact_payoff (o : Option b64) (path : list R) : R :=
  vanilla (getPayoffType (optPayoff o)) (snd (legs o path)) (fst (legs o path)).
Definition exchanged (o : Option b64) (path : list R) : R := fst (legs o path) + snd (legs o path).
