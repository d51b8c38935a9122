(** Specification vocabulary for payoffs, parameters and options. *)
From Coq Require Import String List ZArith Reals Bool.
From Verif Require Import M_Num M_Outcome M_Dict M_Stock M_Market M_Payoff M_Option S_Double.
Import ListNotations.
Local Open Scope string_scope.

(** The value stored under [name] by a list of setParameter calls: the last one. *)
Definition last_set {A} (name : string) (calls : list (string * A)) : option A :=
  option_map snd (find (fun c => String.eqb (fst c) name) (rev calls)).

Section Gen.
Context {T : Type} {num : Num T}.

Definition set_all (calls : list (string * ParamVal T)) : Params T :=
  fold_left (fun p c => setParameter (fst c) (snd c) p) calls [].

(** The payoff documented for a kind, side and parameter set. *)
Definition payoff_spec (k : OptionKind) (ty : PayoffType) (p : Params T) (pay : Payoff T) : Prop :=
  match k with
  | Digital => exists K, getDouble "K" p = Ok K /\ nltb K n0 = false /\ pay = PDigital ty K
  | DoubleDigitalK =>
      exists K1 K2, getDouble "K1" p = Ok K1 /\ getDouble "K2" p = Ok K2 /\
        nltb K1 n0 = false /\ nltb K2 n0 = false /\ pay = PDoubleDigital K1 K2
  | FloatingLookback => pay = PFloating ty
  | _ => exists K, getDouble "K" p = Ok K /\ nltb K n0 = false /\ pay = PVanilla ty K
  end.

Definition barrier_spec (k : OptionKind) (p : Params T) (b : option (T * BarrierDirection)) : Prop :=
  match k with
  | KnockIn | KnockOut =>
      exists B d, getDouble "B" p = Ok B /\ getDir "direction" p = Ok d /\ b = Some (B, d)
  | _ => b = None
  end.

(** [o] is the option that the documentation promises for these parameters. *)
Definition describes (k : OptionKind) (ty : PayoffType) (p : Params T) (w : Market T) (o : Option T) : Prop :=
  optKind o = k /\
  getString "ticker" p = Ok (optTicker o) /\
  (exists l, getStockData (optTicker o) w = Ok l) /\
  getDouble "T" p = Ok (optT o) /\ nltb (optT o) n0 = false /\
  payoff_spec k ty p (optPayoff o) /\
  barrier_spec k p (optBarrier o) /\
  optObj o = List.length (mObj w).
End Gen.

(** Numerical identity of doubles: equal values, or both NaN (zeros are identified). *)
Definition num_same (x y : b64) : Prop :=
  (notnan x /\ notnan y /\ val x = val y) \/ (~ notnan x /\ ~ notnan y).
Definition out_same (a b : outcome b64) : Prop :=
  match a, b with
  | Ok x, Ok y => num_same x y
  | Throw e, Throw f => e = f
  | UB, UB => True
  | _, _ => False
  end.

Definition strikes_nan_free (p : Payoff b64) : Prop :=
  match p with
  | PVanilla _ K | PDigital _ K => notnan K
  | PDoubleDigital a b => notnan a /\ notnan b
  | PFloating _ => True
  end.

(** Same class, same side, numerically equal strikes. *)
Definition same_payoff (p q : Payoff b64) : Prop :=
  match p, q with
  | PVanilla ty K, PVanilla ty' K' => ty = ty' /\ val K = val K'
  | PDigital ty K, PDigital ty' K' => ty = ty' /\ val K = val K'
  | PDoubleDigital a b, PDoubleDigital a' b' => val a = val a' /\ val b = val b'
  | PFloating ty, PFloating ty' => ty = ty'
  | _, _ => False
  end.
