(** src/market_data/stock_data.cpp, include/market_data/stock_data.h *)
From Coq Require Import List ZArith Bool.
From Verif Require Import M_Num M_Outcome.

Section Stock.
Context {T : Type} {num : Num T}.
Local Open Scope num_scope.

(** stock_data.h:28-30: S_, sigma_, c_ *)
Record StockData := mkStock { S_ : T; sigma_ : T; c_ : option T }.

(** stock_data.cpp:55-66.  All three failures are std::invalid_argument; the texts
    are not modelled. *)
Definition validate (d : StockData) : outcome unit :=
  if S_ d <=? n0 then Throw InvalidArgument
  else if sigma_ d <? n0 then Throw InvalidArgument
  else match c_ d with
       | Some c => if (c <? n0) || (c >? n1) then Throw InvalidArgument else Ok tt
       | None => Ok tt
       end.

(** stock_data.cpp:6-9 *)
Definition StockData_ctor (S sigma : T) (c : option T) : outcome StockData :=
  let d := mkStock S sigma c in
  match validate d with
  | Ok _ => Ok d
  | Throw e => Throw e
  | UB => UB
  end.

(** stock_data.cpp:11-21 *)
Definition getPrice (d : StockData) : T := S_ d.
Definition getSigma (d : StockData) : T := sigma_ d.
Definition getCoupon (d : StockData) : option T := c_ d.

Definition has_value (c : option T) : bool := match c with Some _ => true | None => false end.

(** stock_data.cpp:23-34.  C++ [x != y] is the negation of [x == y] (true on NaN). *)
Definition stock_eqb (d e : StockData) : bool :=
  if negb (S_ d =? S_ e) || negb (sigma_ d =? sigma_ e) then false
  else if negb (Bool.eqb (negb (has_value (c_ d))) (negb (has_value (c_ e)))) then false
  else match c_ d, c_ e with
       | Some x, Some y => if negb (x =? y) then false else true
       | _, _ => true
       end.

(** stock_data.cpp:36-38 *)
Definition stock_neqb (d e : StockData) : bool := negb (stock_eqb d e).

(** stock_data.cpp:40-53: the field is assigned first and validated afterwards.  The
    result is the state of the object after the call, together with the outcome. *)
Definition setPrice (S : T) (d : StockData) : StockData * outcome unit :=
  let d' := mkStock S (sigma_ d) (c_ d) in (d', validate d').
Definition setSigma (sigma : T) (d : StockData) : StockData * outcome unit :=
  let d' := mkStock (S_ d) sigma (c_ d) in (d', validate d').
Definition setCoupon (c : option T) (d : StockData) : StockData * outcome unit :=
  let d' := mkStock (S_ d) (sigma_ d) c in (d', validate d').

End Stock.
Arguments StockData T : clear implicits.
