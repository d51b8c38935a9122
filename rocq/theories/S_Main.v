(** What the program is meant to print. *)
From Coq Require Import String List ZArith Bool.
From Verif Require Import M_Num M_Outcome M_Stock M_Market M_Random M_Model M_MonteCarlo M_Builder S_MonteCarlo S_McPaths.
Import ListNotations.

(** Apple at 100 with volatility 20 %, rate 5 %. *)
Definition apple {T} {num : Num T} : Market T :=
  mkMarket (lit 5 2) [("AAPL"%string, 0%nat)] [] [mkStock (lit 100 0) (lit 2 1) None] [].

(** The Monte Carlo value over 100000 GBM paths drawn from [g] of the arithmetic Asian call
    with strike 100 and maturity 1. *)
Definition asian_estimate {T} {num : Num T} (env : Env T) (g : Gen T) (v : T) : Prop :=
  exists paths g', runs (simulatePrices env (mkModel "AAPL" 0 MGBM) apple n1) (Z.to_nat 100000) g = (Ok paths, g') /\
    v = price_of 100000 (nexp (nmul (nopp (lit 5 2)) n1))
          (map (fun p => nmax (nsub (average Arithmetic p) (lit 100 0)) n0) paths).
