(** src/payoff/*.cpp, include/payoff/*.h *)
From Coq Require Import List ZArith Bool String.
From Verif Require Import M_Num M_Outcome.

(** include/payoff/base_payoff.h:9-13 *)
Inductive PayoffType := Call | Put | DoubleDigital.
Definition PayoffType_eqb (a b : PayoffType) : bool :=
  match a, b with
  | Call, Call | Put, Put | DoubleDigital, DoubleDigital => true
  | _, _ => false
  end.

(** include/payoff/base_payoff.h:15-24 *)
Definition PayoffTypeToString (t : PayoffType) : string :=
  match t with Call => "Call" | Put => "Put" | DoubleDigital => "DoubleDigital" end.

Section Payoff.
Context {T : Type} {num : Num T}.
Local Open Scope num_scope.

(** The concrete payoff classes with their fields (type_, K_, K_L_, K_U_).  All of
    them are final, so the constructor of this type is the C++ typeid. *)
Inductive Payoff :=
| PVanilla (ty : PayoffType) (K : T)       (* single_strike/payoff_vanilla.h *)
| PDigital (ty : PayoffType) (K : T)       (* single_strike/payoff_digital.h *)
| PDoubleDigital (KL KU : T)               (* double_strikes/payoff_double_digital.h; type_ is DoubleDigital *)
| PFloating (ty : PayoffType).             (* payoff_floating_strike_lookback.h *)

Definition isCallPut (ty : PayoffType) : bool :=
  PayoffType_eqb ty Call || PayoffType_eqb ty Put.

(** single_strike/base_payoff_single_strike.cpp:7-9 then payoff_vanilla.cpp:7-10 *)
Definition PayoffVanilla_ctor (ty : PayoffType) (K : T) : outcome Payoff :=
  if K <? n0 then Throw InvalidArgument
  else if negb (isCallPut ty) then Throw InvalidArgument
  else Ok (PVanilla ty K).

(** single_strike/base_payoff_single_strike.cpp:7-9 then payoff_digital.cpp:7-10 *)
Definition PayoffDigital_ctor (ty : PayoffType) (K : T) : outcome Payoff :=
  if K <? n0 then Throw InvalidArgument
  else if negb (isCallPut ty) then Throw InvalidArgument
  else Ok (PDigital ty K).

(** double_strikes/base_payoff_double_strikes.cpp:7-11, payoff_double_digital.cpp:6-7 *)
Definition PayoffDoubleDigital_ctor (KL KU : T) : outcome Payoff :=
  if KL <? n0 then Throw InvalidArgument
  else if KU <? n0 then Throw InvalidArgument
  else Ok (PDoubleDigital KL KU).

(** payoff_floating_strike_lookback.cpp:5-10 *)
Definition PayoffFloating_ctor (ty : PayoffType) : outcome Payoff :=
  if negb (isCallPut ty) then Throw InvalidArgument else Ok (PFloating ty).

(** base_payoff.cpp:13-15 *)
Definition getPayoffType (p : Payoff) : PayoffType :=
  match p with
  | PVanilla ty _ | PDigital ty _ | PFloating ty => ty
  | PDoubleDigital _ _ => DoubleDigital
  end.

(** One-argument call.  payoff_vanilla.cpp:18-23, payoff_digital.cpp:18-23,
    payoff_double_digital.cpp:15-17; base_payoff.cpp:35-37 for the class that does
    not override it. *)
Definition payoff1 (p : Payoff) (S : T) : outcome T :=
  match p with
  | PVanilla ty K =>
      Ok (if PayoffType_eqb ty Call then nmax (S - K) n0 else nmax (K - S) n0)
  | PDigital ty K =>
      Ok (if PayoffType_eqb ty Call then (if S >? K then n1 else n0)
          else (if K >? S then n1 else n0))
  | PDoubleDigital KL KU => Ok (if (KL <=? S) && (S <=? KU) then n1 else n0)
  | PFloating _ => Throw LogicError
  end.

(** Two-argument call.  payoff_floating_strike_lookback.cpp:22-27; base_payoff.cpp:39-41
    otherwise. *)
Definition payoff2 (p : Payoff) (S extremeS : T) : outcome T :=
  match p with
  | PFloating ty =>
      Ok (if PayoffType_eqb ty Call then nmax (S - extremeS) n0 else nmax (extremeS - S) n0)
  | _ => Throw LogicError
  end.

(** compare: payoff_vanilla.cpp:29-33, payoff_digital.cpp:29-33,
    payoff_double_digital.cpp:19-23, payoff_floating_strike_lookback.cpp:29-32 *)
Definition payoff_compare (p q : Payoff) : bool :=
  match p, q with
  | PVanilla ty K, PVanilla ty' K' => PayoffType_eqb ty ty' && (K =? K')
  | PDigital ty K, PDigital ty' K' => PayoffType_eqb ty ty' && (K =? K')
  | PDoubleDigital KL KU, PDoubleDigital KL' KU' => (KU =? KU') && (KL =? KL')
  | PFloating ty, PFloating ty' => PayoffType_eqb ty ty'
  | _, _ => false
  end.

Definition payoff_typeid (p : Payoff) : nat :=
  match p with
  | PVanilla _ _ => 0 | PDigital _ _ => 1 | PDoubleDigital _ _ => 2 | PFloating _ => 3
  end.

(** base_payoff.cpp:21-24 and 26-28 *)
Definition payoff_eqb (p q : Payoff) : bool :=
  if negb (Nat.eqb (payoff_typeid p) (payoff_typeid q)) then false
  else payoff_compare p q && payoff_compare q p.
Definition payoff_neqb (p q : Payoff) : bool := negb (payoff_eqb p q).

(** clone (payoff_vanilla.cpp:14-16 and alike): copy construction of all fields *)
Definition payoff_clone (p : Payoff) : Payoff :=
  match p with
  | PVanilla ty K => PVanilla ty K
  | PDigital ty K => PDigital ty K
  | PDoubleDigital KL KU => PDoubleDigital KL KU
  | PFloating ty => PFloating ty
  end.

(** getType: payoff_vanilla.cpp:25-27, payoff_digital.cpp:25-27,
    payoff_double_digital.cpp:25-27, payoff_floating_strike_lookback.cpp:14-16 *)
Definition payoff_getType (p : Payoff) : string :=
  match p with
  | PVanilla ty _ => "Vanilla " ++ PayoffTypeToString ty
  | PDigital ty _ => "Digital " ++ PayoffTypeToString ty
  | PDoubleDigital _ _ => "Double Digital"
  | PFloating ty => "Floating Strike Lookback " ++ PayoffTypeToString ty
  end%string.

End Payoff.
Arguments Payoff T : clear implicits.
