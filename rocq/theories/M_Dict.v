(** std::unordered_map<std::string, A> as an association list.
    Simplification: hashing and iteration order are not modelled (the library
    never iterates over its maps). *)
From Coq Require Import List String.
Import ListNotations.

Definition dict (A : Type) := list (string * A).

(** find / at *)
Fixpoint dget {A} (k : string) (d : dict A) : option A :=
  match d with
  | [] => None
  | (k', v) :: d' => if String.eqb k k' then Some v else dget k d'
  end.

(** operator[] followed by assignment *)
Fixpoint dset {A} (k : string) (v : A) (d : dict A) : dict A :=
  match d with
  | [] => [(k, v)]
  | (k', v') :: d' => if String.eqb k k' then (k, v) :: d' else (k', v') :: dset k v d'
  end.

(** Replace the element at index [i] of a vector (unchanged if out of range). *)
Fixpoint lset {A} (i : nat) (x : A) (l : list A) : list A :=
  match l, i with
  | [], _ => []
  | _ :: l', O => x :: l'
  | y :: l', S i' => y :: lset i' x l'
  end.
