(** Outcome of a C++ call. *)
From Coq Require Import List ZArith.
Import ListNotations.

(** The standard exception classes thrown by the library. *)
Inductive exn : Set := InvalidArgument | LogicError | RuntimeError.

Inductive outcome (A : Type) : Type :=
| Ok (a : A)
| Throw (e : exn)
| UB.                 (* undefined behaviour *)
Arguments Ok {A} a.
Arguments Throw {A} e.
Arguments UB {A}.

Definition bind {A B} (m : outcome A) (f : A -> outcome B) : outcome B :=
  match m with
  | Ok a => f a
  | Throw e => Throw e
  | UB => UB
  end.

Declare Scope outcome_scope.
Delimit Scope outcome_scope with outcome.
Notation "'let*' x := m 'in' f" := (bind m (fun x => f))
  (at level 200, x pattern, m at level 100, f at level 200, right associativity) : outcome_scope.

Definition isOk {A} (m : outcome A) : bool :=
  match m with Ok _ => true | _ => false end.

(** [v[i]] on a std::vector: out of bounds is undefined. *)
Definition vget {A} (v : list A) (i : Z) : outcome A :=
  if (i <? 0)%Z then UB
  else match nth_error v (Z.to_nat i) with Some x => Ok x | None => UB end.

(** [v.back()] / [v.front()]: undefined on an empty vector. *)
Definition vback {A} (v : list A) : outcome A :=
  match rev v with x :: _ => Ok x | [] => UB end.
Definition vfront {A} (v : list A) : outcome A :=
  match v with x :: _ => Ok x | [] => UB end.

Definition INT_MAX : Z := 2147483647.
Definition UINT_MOD : Z := 4294967296.
Definition ULONG_MOD : Z := 18446744073709551616.

Section Loops.
Context {S : Type}.

(** [n] executions of a loop body that gets the counter. *)
Fixpoint iter_from (n : nat) (i : Z) (body : Z -> S -> outcome S) (s : S) : outcome S :=
  match n with
  | O => Ok s
  | Datatypes.S n' => bind (body i s) (iter_from n' (i + 1)%Z body)
  end.

(** [for (unsigned i = 0; i < n; ++i) body] *)
Definition for_uint (n : Z) (body : Z -> S -> outcome S) (s : S) : outcome S :=
  iter_from (Z.to_nat n) 0 body s.

(** [for (int i = 0; i < n; ++i) body] with an unsigned bound [n]: the comparison
    converts [i] to the unsigned type, so for [n > INT_MAX] the counter is
    incremented past INT_MAX, which is undefined. *)
Definition for_int (n : Z) (body : Z -> S -> outcome S) (s : S) : outcome S :=
  if (n <=? INT_MAX)%Z then iter_from (Z.to_nat n) 0 body s
  else bind (iter_from (Z.to_nat (INT_MAX + 1)) 0 body s) (fun _ => UB).
End Loops.
