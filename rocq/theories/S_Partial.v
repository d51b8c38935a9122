(** Real arithmetic in which an undefined operation (division by zero, square root of a
    negative number, logarithm of a non-positive number) makes the result [None].
    Running the model in it shows that a computation is defined everywhere. *)
From Coq Require Import ZArith Reals Bool.
From Flocq Require Import Core.
From Verif Require Import M_Num.
Local Open Scope R_scope.

Definition opt1 (f : R -> option R) (x : option R) : option R :=
  match x with Some a => f a | None => None end.
Definition opt2 (f : R -> R -> option R) (x y : option R) : option R :=
  match x, y with Some a, Some b => f a b | _, _ => None end.
Definition cmp2 (f : R -> R -> bool) (x y : option R) : bool :=
  match x, y with Some a, Some b => f a b | _, _ => false end.

Definition Rpartial : Num (option R) := {|
  nadd := opt2 (fun a b => Some (a + b));
  nsub := opt2 (fun a b => Some (a - b));
  nmul := opt2 (fun a b => Some (a * b));
  ndiv := opt2 (fun a b => if Req_bool b 0 then None else Some (a / b));
  nopp := opt1 (fun a => Some (- a));
  nltb := cmp2 Rlt_bool;
  nleb := cmp2 Rle_bool;
  neqb := cmp2 Req_bool;
  nsqrt := opt1 (fun a => if Rlt_bool a 0 then None else Some (sqrt a));
  nexp := opt1 (fun a => Some (exp a));
  nlog := opt1 (fun a => if Rle_bool a 0 then None else Some (ln a));
  nofZ := fun z => Some (IZR z)
|}.
