(** Vocabulary for prices computed in binary64 on quasi-random points with one coordinate. *)
From Coq Require Import List ZArith Reals.
From Verif Require Import M_Num M_Payoff M_Random S_Double S_GbmDouble.
Import ListNotations.
Local Open Scope R_scope.

(** The payoff with the real numbers its strikes stand for. *)
Definition payoff_of (p : Payoff b64) : Payoff R :=
  match p with
  | PVanilla ty K => PVanilla ty (val K)
  | PDigital ty K => PDigital ty (val K)
  | PDoubleDigital KL KU => PDoubleDigital (val KL) (val KU)
  | PFloating ty => PFloating ty
  end.

(** Strikes that are numbers between exp(-200) and exp(200). *)
Definition ordinary_strikes (p : Payoff b64) : Prop :=
  match p with
  | PVanilla _ K | PDigital _ K => finite K /\ ordinary_price (val K)
  | PDoubleDigital KL KU => finite KL /\ ordinary_price (val KL) /\ finite KU /\ ordinary_price (val KU)
  | PFloating _ => False
  end.

(** The number path [j] is made from: the coordinate of point [j] divided by max(). *)
Definition number64 (env : Env b64) (k : QKind) (seed : Z) (j : nat) : b64 :=
  b64_div (e_point env k seed 1 j 0) (e_max env k).
Definition numbers64 (env : Env b64) (k : QKind) (seed N : Z) : list b64 := map (number64 env k seed) (seq 0 (Z.to_nat N)).
