(** src/option/*.cpp, include/option/*.h: parameter object, options and factories. *)
From Coq Require Import List ZArith Bool String.
From Verif Require Import M_Num M_Outcome M_Dict M_Stock M_Market M_Payoff.
Import ListNotations.
Local Open Scope string_scope.

(** include/option/path_dependent/barrier_option.h:8-10 *)
Inductive BarrierDirection := Up | Down.

(** The ten concrete option classes. *)
Inductive OptionKind :=
| European | Digital | DoubleDigitalK | American | ArithmeticAsian | GeometricAsian
| FixedLookback | FloatingLookback | KnockIn | KnockOut.

Section Option.
Context {T : Type} {num : Num T}.

(** include/option/parameter_object.h:16 *)
Inductive ParamVal :=
| VInt (i : Z) | VDouble (d : T) | VString (s : string) | VDir (b : BarrierDirection).

Definition Params := dict ParamVal.

(** src/option/parameter_object.cpp:5-7 *)
Definition setParameter (name : string) (v : ParamVal) (p : Params) : Params := dset name v p.
(** src/option/parameter_object.cpp:9-12 *)
Definition hasParameter (name : string) (p : Params) : bool :=
  match dget name p with Some _ => true | None => false end.
(** include/option/parameter_object.h:21-31, one instance per stored type.  Both
    failures (absent, other type) are std::invalid_argument. *)
Definition getInt (name : string) (p : Params) : outcome Z :=
  match dget name p with Some (VInt i) => Ok i | _ => Throw InvalidArgument end.
Definition getDouble (name : string) (p : Params) : outcome T :=
  match dget name p with Some (VDouble d) => Ok d | _ => Throw InvalidArgument end.
Definition getString (name : string) (p : Params) : outcome string :=
  match dget name p with Some (VString s) => Ok s | _ => Throw InvalidArgument end.
Definition getDir (name : string) (p : Params) : outcome BarrierDirection :=
  match dget name p with Some (VDir b) => Ok b | _ => Throw InvalidArgument end.

(** include/option/base_option.h:55-57 and barrier_option.h:23-24.  [optBarrier] is
    present exactly for barrier options.  [optObj] is the observer object the option
    is.  All options of a program share the MarketData singleton
    (base_factory_option.h:59), so marketData_ is not a field. *)
Record Option := mkOption {
  optKind : OptionKind;
  optTicker : string;
  optT : T;
  optPayoff : Payoff T;
  optBarrier : option (T * BarrierDirection);
  optObj : nat
}.

(** src/option/base_option.cpp:20-29: maturity check, ticker check. *)
Definition Option_ctor_checks (ticker : string) (t : T) (w : Market T) : outcome unit :=
  if (t <? n0)%num then Throw InvalidArgument
  else bind (getStockData ticker w) (fun _ => Ok tt).

(** createSpecificPayoff of each factory: factory_european_option.cpp:6-9,
    factory_digital_option.cpp:6-9, factory_double_digital_option.cpp:6-10,
    factory_american_option.cpp:7-10, factory_asian_option.cpp:8-11 and 30-33,
    factory_barrier_option.cpp:8-11 and 32-35, factory_lookback_option.cpp:9-12 and 31-34.
    The two arguments of the double digital are evaluated in an unspecified order; both
    failures are the same exception class. *)
Definition createSpecificPayoff (k : OptionKind) (p : Params) (ty : PayoffType) : outcome (Payoff T) :=
  match k with
  | Digital => bind (getDouble "K" p) (fun K => PayoffDigital_ctor ty K)
  | DoubleDigitalK =>
      bind (getDouble "K1" p) (fun K1 => bind (getDouble "K2" p) (fun K2 =>
        PayoffDoubleDigital_ctor K1 K2))
  | FloatingLookback => PayoffFloating_ctor ty
  | European | American | ArithmeticAsian | GeometricAsian | FixedLookback | KnockIn | KnockOut =>
      bind (getDouble "K" p) (fun K => PayoffVanilla_ctor ty K)
  end.

Definition isBarrierKind (k : OptionKind) : bool :=
  match k with KnockIn | KnockOut => true | _ => false end.

(** createSpecificOption of each factory: factory_european_option.cpp:11-19 and alike;
    factory_barrier_option.cpp:13-25 and 37-49 also read "B" and "direction".  The
    constructor arguments are evaluated in an unspecified order; all failures are
    std::invalid_argument.  The new object gets one shared_ptr. *)
Definition createSpecificOption (k : OptionKind) (p : Params) (pay : Payoff T) (w : Market T)
    : outcome (Option * Market T) :=
  bind (getString "ticker" p) (fun ticker =>
  bind (getDouble "T" p) (fun t =>
  bind (if isBarrierKind k
        then bind (getDouble "B" p) (fun B => bind (getDir "direction" p) (fun d => Ok (Some (B, d))))
        else Ok None) (fun bar =>
  bind (Option_ctor_checks ticker t w) (fun _ =>
    Ok (mkOption k ticker t pay bar (List.length (mObj w)), newObserver ticker true w))))).

(** include/option/base_factory_option.h:56-72.  invalid_argument is rethrown as
    invalid_argument; initialize() (base_option.cpp:72-74) registers the option.
    Simplification: when the constructor of the option fails no object exists and no
    destructor runs, so the world is unchanged. *)
Definition createOption (k : OptionKind) (ty : PayoffType) (p : Params) (w : Market T)
    : Res T Option :=
  match bind (createSpecificPayoff k p ty) (fun pay => createSpecificOption k p pay w) with
  | Ok (o, w') => mkRes (Ok o) (addObserver (optObj o) w') []
  | Throw e => mkRes (Throw e) w []
  | UB => mkRes UB w []
  end.
(** base_factory_option.h:46-54 *)
Definition createCallOption k p w := createOption k Call p w.
Definition createPutOption k p w := createOption k Put p w.

(** src/option/base_option.cpp:41-44 (&& short-circuits) and 46-48 *)
Definition option_eqb (a b : Option) (w : Market T) : outcome bool :=
  if negb (neqb (optT a) (optT b)) then Ok false
  else if negb (payoff_eqb (optPayoff a) (optPayoff b)) then Ok false
  else
    bind (getStockData (optTicker a) w) (fun la =>
    bind (deref la w) (fun da =>
    bind (getStockData (optTicker b) w) (fun lb =>
    bind (deref lb w) (fun db => Ok (stock_eqb da db))))).
Definition option_neqb (a b : Option) (w : Market T) : outcome bool :=
  bind (option_eqb a b w) (fun r => Ok (negb r)).

(** src/option/base_option.cpp:94-100 *)
Definition option_payoff1 (o : Option) (S : T) : outcome T := payoff1 (optPayoff o) S.
Definition option_payoff2 (o : Option) (S ext : T) : outcome T := payoff2 (optPayoff o) S ext.

(** src/option/path_dependent/barrier_option.cpp:8-13 *)
Definition barrier_isActive (B : T) (d : BarrierDirection) (S : T) : bool :=
  match d with
  | Up => nleb B S        (* S >= B_ *)
  | Down => nleb S B      (* S <= B_ *)
  end.
(** barrier_option.cpp:26-28 *)
Definition knockIn_isActive (B : T) (d : BarrierDirection) (S : T) : bool := barrier_isActive B d S.
(** barrier_option.cpp:37-39 *)
Definition knockOut_isActive (B : T) (d : BarrierDirection) (S : T) : bool := negb (barrier_isActive B d S).

End Option.
Arguments Option T : clear implicits.
Arguments ParamVal T : clear implicits.
Arguments Params T : clear implicits.

(** *** Help text of a failed creation (base_factory_option.h:74-81, 66) *)

(** getType of each factory: the line "return ..." of each factory file. *)
Definition factory_getType (k : OptionKind) (ty : PayoffType) : string :=
  match k with
  | European => "European " ++ PayoffTypeToString ty ++ " Option"
  | Digital => "Digital " ++ PayoffTypeToString ty ++ " Option"
  | DoubleDigitalK => PayoffTypeToString ty ++ " Option"
  | American => "American " ++ PayoffTypeToString ty ++ " Option"
  | ArithmeticAsian => "Arithmetic Asian " ++ PayoffTypeToString ty ++ " Option"
  | GeometricAsian => "Geometric Asian  " ++ PayoffTypeToString ty ++ " Option"
  | FixedLookback => "Fixed Strike Lookback " ++ PayoffTypeToString ty ++ " Option"
  | FloatingLookback => "Floating Strike Lookback " ++ PayoffTypeToString ty ++ " Option"
  | KnockIn => "Knock-In  " ++ PayoffTypeToString ty ++ " Option"
  | KnockOut => "Knock-Out " ++ PayoffTypeToString ty ++ " Option"
  end.

Definition nl : string := String (Ascii.ascii_of_nat 10) EmptyString.

(** base_factory_option.h:75-81 *)
Definition invalidParams_base (option_type : string) : string :=
  "Invalid parameters for " ++ option_type ++ nl ++
  "Expected parameters:" ++ nl ++
  "  - ticker (string) for ticker symbol" ++ nl ++
  "  - T (double) for maturity" ++ nl ++
  "  - K (double) for strike" ++ nl.

(** std::string::replace(pos, len, s): [len] is cut at the end of the string. *)
Definition str_replace (s : string) (pos len : nat) (r : string) : string :=
  substring 0 pos s ++ r ++ substring (pos + len) (length s - (pos + len)) s.

(** factory_double_digital_option.cpp:22-28; the other factories inherit the base text *)
Definition invalidParams (k : OptionKind) (option_type : string) : string :=
  let base := invalidParams_base option_type in
  match k with
  | DoubleDigitalK =>
      match index 0 "K (double) for strike" base with
      | Some pos => str_replace base pos 24
                      ("K1 (double) for 1st strike" ++ nl ++ "  - K2 (double) for 2nd strike")
      | None => base
      end
  | _ => base
  end.
