(** src/solver/monte_carlo/*.cpp: the Monte Carlo pricers.

    A pricer holds the option, the market data (argument [w]), the stock model and, for
    the American one, basis and regression.  The stock model holds its own pointer to
    market data ([wm]) and the generator, which is the state of [SM]. *)
From Coq Require Import String List ZArith Bool.
From Verif Require Import M_Num M_Outcome M_Dict M_Stock M_Market M_Payoff M_Option M_Random M_Model
  M_Regression.
Import ListNotations.

Section MonteCarlo.
Context {T : Type} {num : Num T}.
Local Open Scope num_scope.
Local Open Scope sm_scope.
Context (env : Env T).

(** [for (unsigned long i = 0; i < N; ++i)] *)
Definition sfor_ulong {S} (n : Z) (body : Z -> S -> SM T S) (s : S) : SM T S :=
  siter (Z.to_nat n) 0 body s.

(** exp(-marketData_->getR() * option_->getT()) *)
Definition discount_factor (w : Market T) (t : T) : T := nexp (- getR w * t).

(** mc_single_path.cpp:12-22 *)
Definition single_path_price (o : Option T) (w : Market T) (m : StockModel T) (wm : Market T) (N : Z)
    : SM T T :=
  let discountFactor := discount_factor w (optT o) in
  sumPayoff <- sfor_int N (fun _ sumPayoff =>
    S_T <- simulatePriceAtMaturity env m wm (optT o) ;;
    p <- slift (option_payoff1 o S_T) ;;
    sret (sumPayoff + p)) n0 ;;
  sret ((sumPayoff / nofZ N) * discountFactor).

(** The loop [for (int t = 0; t < steps; ++t)] over the prices S[t], with a body that may
    stop it (break). *)
Definition for_prices {A} (S : list T) (steps : Z) (body : T -> A -> A * bool) (a : A) : outcome A :=
  bind (for_int steps (fun t '(a, stop) =>
    if stop : bool then Ok (a, true) else bind (vget S t) (fun x => Ok (body x a))) (a, false))
  (fun r => Ok (fst r)).

(** S[steps-1]: the index is unsigned and wraps for steps = 0 *)
Definition last_price (S : list T) (steps : Z) : outcome T := vget S ((steps - 1) mod UINT_MOD).

Inductive AsianKind := Arithmetic | Geometric.
(** mc_asian.cpp:39-41 and 54-56 *)
Definition computeSumPrices (k : AsianKind) (S_t : T) : T :=
  match k with Arithmetic => S_t | Geometric => nlog S_t end.
(** mc_asian.cpp:43-45 and 58-60 *)
Definition computeAveragePrice (k : AsianKind) (averagePrice : T) (steps : Z) : T :=
  match k with
  | Arithmetic => averagePrice / nofZ steps
  | Geometric => nexp (averagePrice / nofZ steps)
  end.

(** mc_asian.cpp:12-30 *)
Definition asian_price (k : AsianKind) (o : Option T) (w : Market T) (m : StockModel T) (wm : Market T)
    (N : Z) : SM T T := fun g0 =>
  (let steps := getSteps g0 in
   let discountFactor := discount_factor w (optT o) in
   sumPayoff <- sfor_ulong N (fun _ sumPayoff =>
     S <- simulatePrices env m wm (optT o) ;;
     sumPrices <- slift (for_prices S steps
       (fun x sumPrices => (sumPrices + computeSumPrices k x, false)) n0) ;;
     let averagePrice := computeAveragePrice k sumPrices steps in
     p <- slift (option_payoff1 o averagePrice) ;;
     sret (sumPayoff + p)) n0 ;;
   sret ((sumPayoff / nofZ N) * discountFactor)) g0.

(** The barrier of a barrier option (option_->isActive); other options have none and are
    refused by the builders' casts. *)
Definition isActive (o : Option T) (S : T) : outcome bool :=
  match optBarrier o, optKind o with
  | Some (B, d), KnockIn => Ok (knockIn_isActive B d S)
  | Some (B, d), KnockOut => Ok (knockOut_isActive B d S)
  | _, _ => UB
  end.

Inductive KnockKind := KIn | KOut.
(** checkHasCrossed, mc_barrier.cpp:40-45 and 58-64: the new hasCrossed, and whether to
    leave the loop *)
Definition checkHasCrossed (k : KnockKind) (active : bool) (hasCrossed : bool) : bool * bool :=
  match k with
  | KIn => (if active then true else hasCrossed, false)
  | KOut => if negb active then (true, true) else (hasCrossed, false)
  end.
(** mc_barrier.cpp:47-49 and 66-68 *)
Definition barrier_payoff (k : KnockKind) (o : Option T) (S_T : T) (hasCrossed : bool) : outcome T :=
  match k with
  | KIn => if hasCrossed then option_payoff1 o S_T else Ok n0
  | KOut => if hasCrossed then Ok n0 else option_payoff1 o S_T
  end.

(** mc_barrier.cpp:21-25 *)
Definition barrier_crossed (k : KnockKind) (o : Option T) (S : list T) (steps : Z) : outcome bool :=
  bind (for_int steps (fun t '(hasCrossed, stop) =>
    if stop : bool then Ok (hasCrossed, true)
    else bind (vget S t) (fun x => bind (isActive o x) (fun a => Ok (checkHasCrossed k a hasCrossed))))
    (false, false))
  (fun r => Ok (fst r)).

(** mc_barrier.cpp:12-31 *)
Definition barrier_price (k : KnockKind) (o : Option T) (w : Market T) (m : StockModel T) (wm : Market T)
    (N : Z) : SM T T := fun g0 =>
  (let steps := getSteps g0 in
   let discountFactor := discount_factor w (optT o) in
   sumPayoff <- sfor_int N (fun _ sumPayoff =>
     S <- simulatePrices env m wm (optT o) ;;
     hasCrossed <- slift (barrier_crossed k o S steps) ;;
     S_T <- slift (last_price S steps) ;;
     p <- slift (barrier_payoff k o S_T hasCrossed) ;;
     sret (sumPayoff + p)) n0 ;;
   sret ((sumPayoff / nofZ N) * discountFactor)) g0.

(** std::min(S_min, x) and std::max(S_max, x) where S_min starts as +infinity and S_max as
    -infinity; [None] stands for that start value.  [x =? x] fails only for NaN, for which
    the comparison of std::min is false and the start value stays. *)
Definition min_from (cur : option T) (x : T) : option T :=
  match cur with None => if x =? x then Some x else None | Some m => Some (nmin m x) end.
Definition max_from (cur : option T) (x : T) : option T :=
  match cur with None => if x =? x then Some x else None | Some m => Some (nmax m x) end.
Definition plus_infinity : T := n1 / n0.
Definition or_inf (cur : option T) (inf : T) : T := match cur with Some m => m | None => inf end.

Inductive LookbackKind := Floating | Fixed.
(** mc_lookback.cpp:41-47 and 57-63 *)
Definition lookback_payoff (k : LookbackKind) (o : Option T) (S_T S_min S_max : T) : outcome T :=
  match k with
  | Floating => if PayoffType_eqb (getPayoffType (optPayoff o)) Call
                then option_payoff2 o S_T S_min else option_payoff2 o S_T S_max
  | Fixed => if PayoffType_eqb (getPayoffType (optPayoff o)) Call
             then option_payoff1 o S_max else option_payoff1 o S_min
  end.

(** mc_lookback.cpp:12-31 *)
Definition lookback_price (k : LookbackKind) (o : Option T) (w : Market T) (m : StockModel T)
    (wm : Market T) (N : Z) : SM T T := fun g0 =>
  (let steps := getSteps g0 in
   let discountFactor := discount_factor w (optT o) in
   sumPayoff <- sfor_int N (fun _ sumPayoff =>
     S <- simulatePrices env m wm (optT o) ;;
     ext <- slift (for_prices S steps
       (fun x '(S_min, S_max) => ((min_from S_min x, max_from S_max x), false)) (None, None)) ;;
     S_T <- slift (last_price S steps) ;;
     p <- slift (lookback_payoff k o S_T (or_inf (fst ext) plus_infinity)
                   (or_inf (snd ext) (- plus_infinity))) ;;
     sret (sumPayoff + p)) n0 ;;
   sret ((sumPayoff / nofZ N) * discountFactor)) g0.

(** ** American options (mc_american.cpp) *)
Context (la : LinAlg T).

(** row * coeffs: Eigen asserts that the sizes agree *)
Definition row_times (row coeffs : list T) : outcome T :=
  if Nat.eqb (length row) (length coeffs) then Ok (dot row coeffs) else UB.

(** americanPrices.mean(): Eigen asserts that the vector is not empty *)
Definition mean (v : list T) : outcome T :=
  match v with [] => UB | _ => Ok (nsum v / nofZ (Z.of_nat (length v))) end.

(** mc_american.cpp:48-62, the prices [xs] of the date and the americanPrices [am] in path
    order: inTheMoneyPaths, discountedCashFlows, isInTheMoney *)
Fixpoint collect (o : Option T) (df : T) (xs am : list T) : outcome (list T * list T * list bool) :=
  match xs, am with
  | x :: xs', a :: am' =>
      bind (option_payoff1 o x) (fun exerciseValue =>
      bind (collect o df xs' am') (fun '(itm, cfs, flags) =>
        Ok (if exerciseValue >? n0 then (x :: itm, a * df :: cfs, true :: flags)
            else (itm, cfs, false :: flags))))
  | _, _ => Ok ([], [], [])
  end.

(** mc_american.cpp:75-89 (and 151-165) *)
Fixpoint decide (o : Option T) (df : T) (bases : list (list T)) (coeffs : list T) (idxITM : Z)
    (xs : list T) (flags : list bool) (am : list T) : outcome (list T) :=
  match xs, flags, am with
  | x :: xs', true :: fl', a :: am' =>
      bind (option_payoff1 o x) (fun exerciseValue =>
      bind (vget bases idxITM) (fun row =>
      bind (row_times row coeffs) (fun continuationValue =>
      bind (decide o df bases coeffs (idxITM + 1) xs' fl' am') (fun rest =>
        Ok ((if exerciseValue >? continuationValue then exerciseValue else a * df) :: rest)))))
  | x :: xs', false :: fl', a :: am' =>
      bind (decide o df bases coeffs idxITM xs' fl' am') (fun rest => Ok (a * df :: rest))
  | _, _, _ => Ok []
  end.

(** mc_american.cpp:64-90 (and 140-166) *)
Definition exercise_or_continue (o : Option T) (df : T) (b : Basis T) (r : Regression T)
    (xs am : list T) (c : list T * list T * list bool) : outcome (list T) :=
  let '(itm, cfs, flags) := c in
  match itm with
  | [] => Ok am
  | _ => bind (generate b itm) (fun bases =>
         bind (solve la r bases cfs) (fun coeffs =>
         decide o df bases coeffs 0 xs flags am))
  end.

Fixpoint omap {A B} (f : A -> outcome B) (l : list A) : outcome (list B) :=
  match l with
  | [] => Ok []
  | a :: l' => bind (f a) (fun b => bind (omap f l') (fun bs => Ok (b :: bs)))
  end.

(** paths.col(j) of the matrix of paths, one row per path *)
Definition path_col (paths : list (list T)) (j : Z) : outcome (list T) := omap (fun p => vget p j) paths.

(** mc_american.cpp:47-91: the dates j = n-1, ..., 0 *)
Fixpoint lsm_down (o : Option T) (df : T) (b : Basis T) (r : Regression T) (paths : list (list T))
    (n : nat) (am : list T) : outcome (list T) :=
  match n with
  | O => Ok am
  | Datatypes.S j =>
      bind (path_col paths (Z.of_nat j)) (fun xs =>
      bind (collect o df xs am) (fun c =>
      bind (exercise_or_continue o df b r xs am c) (fun am' =>
      lsm_down o df b r paths j am')))
  end.

(** static_cast<int> of an unsigned int (C++20: modulo 2^32) *)
Definition to_int (u : Z) : Z := if (u <=? INT_MAX)%Z then u else (u - UINT_MOD)%Z.

(** N simulated values, in order: the loops of lines 36-39 and 109-111 *)
Definition repeat_sim {A} (sim : SM T A) (N : Z) : SM T (list A) :=
  sfor_int N (fun _ l => x <- sim ;; sret (l ++ [x])) [].

(** mc_american.cpp:26-95.  The rows of the Eigen matrix have [steps] entries, as has every
    simulated path; path_col (steps - 1) is undefined for steps = 0. *)
Definition standard_price (o : Option T) (w : Market T) (m : StockModel T) (wm : Market T)
    (b : Basis T) (r : Regression T) (N : Z) : SM T T := fun g0 =>
  (let steps := getSteps g0 in
   let dt := optT o / nofZ steps in
   let df := discount_factor w dt in
   paths <- repeat_sim (simulatePrices env m wm (optT o)) N ;;
   slift (
     bind (path_col paths ((steps - 1) mod UINT_MOD)) (fun last =>
     bind (omap (option_payoff1 o) last) (fun am =>
     bind (lsm_down o df b r paths (Z.to_nat (to_int steps - 1)) am) (fun am =>
     bind (mean am) (fun v => Ok (v * df))))))) g0.

(** mc_american.cpp:124-138; [backward] is stockModel_->simulatePriceBackward *)
Fixpoint collect_bridge (backward : T -> T -> T -> SM T T) (o : Option T) (df t_j t_jp1 : T)
    (xs am : list T) : SM T (list T * (list T * list T * list bool)) :=
  match xs, am with
  | x :: xs', a :: am' =>
      x1 <- backward x t_j t_jp1 ;;
      exerciseValue <- slift (option_payoff1 o x1) ;;
      rest <- collect_bridge backward o df t_j t_jp1 xs' am' ;;
      let '(ys, (itm, cfs, flags)) := rest in
      sret (x1 :: ys, if exerciseValue >? n0 then (x1 :: itm, a * df :: cfs, true :: flags)
                      else (itm, cfs, false :: flags))
  | _, _ => sret ([], ([], [], []))
  end.

(** mc_american.cpp:119-167: the dates j = n, ..., 1 *)
Fixpoint bridge_down (backward : T -> T -> T -> SM T T) (o : Option T) (df dt : T) (b : Basis T)
    (r : Regression T) (n : nat) (xs am : list T) : SM T (list T) :=
  match n with
  | O => sret am
  | Datatypes.S n' =>
      let j := Z.of_nat n in
      let t_j := nofZ j * dt in
      let t_jp1 := nofZ (j + 1) * dt in
      rest <- collect_bridge backward o df t_j t_jp1 xs am ;;
      let '(ys, c) := rest in
      am' <- slift (exercise_or_continue o df b r ys am c) ;;
      bridge_down backward o df dt b r n' ys am'
  end.

(** mc_american.cpp:97-171 *)
Definition bridge_price (backward : T -> T -> T -> SM T T) (o : Option T) (w : Market T)
    (m : StockModel T) (wm : Market T) (b : Basis T) (r : Regression T) (N : Z) : SM T T := fun g0 =>
  (let steps := getSteps g0 in
   let dt := optT o / nofZ steps in
   let df := discount_factor w dt in
   paths <- repeat_sim (simulatePriceAtMaturity env m wm (optT o)) N ;;
   am <- slift (omap (option_payoff1 o) paths) ;;
   am <- bridge_down backward o df dt b r (Z.to_nat (to_int steps - 1)) paths am ;;
   v <- slift (mean am) ;;
   sret (v * df)) g0.

(** mc_american.cpp:17-24 *)
Definition american_price_with (backward : T -> T -> T -> SM T T) (o : Option T) (w : Market T)
    (m : StockModel T) (wm : Market T) (b : Basis T) (r : Regression T) (N : Z) : SM T T := fun g0 =>
  match gQuasi g0, mdKind m with
  | None, MGBM => bridge_price backward o w m wm b r N g0
  | _, _ => standard_price o w m wm b r N g0
  end.
Definition american_price (o : Option T) (w : Market T) (m : StockModel T) (wm : Market T)
    (b : Basis T) (r : Regression T) (N : Z) : SM T T :=
  american_price_with (simulatePriceBackward env m wm) o w m wm b r N.

End MonteCarlo.
