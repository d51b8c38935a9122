(** operator<< of StockData, Payoff and Option.

    The decimal form of a double, which depends on the state of the stream, is an arbitrary
    function [fmt].  The result is what happens and the text written until then. *)
From Coq Require Import List ZArith Bool String.
From Verif Require Import M_Num M_Outcome M_Dict M_Stock M_Market M_Payoff M_Option.
Import ListNotations.
Local Open Scope string_scope.

(** src/option/base_option.cpp:76-84: the demangled name of the class (the demangling of a
    name the compiler produced does not fail). *)
Definition option_getType (k : OptionKind) : string :=
  match k with
  | European => "OptionPricer::EuropeanOption"
  | Digital => "OptionPricer::DigitalOption"
  | DoubleDigitalK => "OptionPricer::DoubleDigitalOption"
  | American => "OptionPricer::AmericanOption"
  | ArithmeticAsian => "OptionPricer::ArithmeticAsianOption"
  | GeometricAsian => "OptionPricer::GeometricAsianOption"
  | FixedLookback => "OptionPricer::FixedStrikeLookbackOption"
  | FloatingLookback => "OptionPricer::FloatingStrikeLookbackOption"
  | KnockIn => "OptionPricer::KnockInBarrierOption"
  | KnockOut => "OptionPricer::KnockOutBarrierOption"
  end.

Section Print.
Context {T : Type} {num : Num T}.
Variable fmt : T -> string.

(** src/market_data/stock_data.cpp:68-75 *)
Definition print_stock (d : StockData T) : string :=
  "  -> Price: " ++ fmt (S_ d) ++ nl ++
  "  -> Volatility: " ++ fmt (sigma_ d) ++ nl ++
  match c_ d with
  | Some c => "  -> Coupon: " ++ fmt c ++ nl
  | None => ""
  end.

(** src/payoff/base_payoff.cpp:17-19 *)
Definition print_payoff_type (ty : PayoffType) : string := "  -> Type: " ++ PayoffTypeToString ty ++ nl.
(** src/payoff/base_payoff.cpp:17-19 and 30-33, single_strike/base_payoff_single_strike.cpp:17-20,
    double_strikes/base_payoff_double_strikes.cpp:23-27; the floating-strike payoff does not
    override print. *)
Definition print_payoff (p : Payoff T) : string :=
  match p with
  | PVanilla ty K | PDigital ty K => print_payoff_type ty ++ "  -> Stike: " ++ fmt K ++ nl
  | PDoubleDigital KL KU =>
      print_payoff_type DoubleDigital ++ "  -> Lower Strike: " ++ fmt KL ++ nl ++ "  -> Upper Strike: " ++ fmt KU ++ nl
  | PFloating ty => print_payoff_type ty
  end.

(** src/option/base_option.cpp:50-70.  marketData_ and payoff_ of an option made by a factory
    are not null (base_factory_option.h:56-72). *)
Definition print_option (o : Option T) (w : Market T) : outcome unit * string :=
  let head :=
    "Option:" ++ nl ++
    "  -> Type: " ++ option_getType (optKind o) ++ nl ++
    "  -> Expiration: " ++ fmt (optT o) ++ " year" ++ nl ++
    "Payoff:" ++ nl ++ print_payoff (optPayoff o) in
  match getStockData (optTicker o) w with
  | Ok l =>
      let head := head ++ "Stock:" ++ nl ++ "  -> Ticker: " ++ optTicker o ++ nl in
      match deref l w with
      | Ok d =>
          (Ok tt, head ++ print_stock d ++ "MarketData:" ++ nl ++ "  -> Risk Free Interest Rate: " ++ fmt (getR w) ++ nl)
      | Throw e => (Throw e, head)
      | UB => (UB, head)
      end
  | Throw e => (Throw e, head)
  | UB => (UB, head)
  end.

End Print.
