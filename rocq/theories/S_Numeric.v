(** Vocabulary for the statements on interpolation, linear systems and polynomials. *)
From Coq Require Import List ZArith Reals.
Import ListNotations.
Local Open Scope R_scope.

(** The elements, read as numbers by [v], increase strictly. *)
Definition increasing {T} (v : T -> R) (xs : list T) : Prop :=
  forall i j x y, (i < j)%nat -> nth_error xs i = Some x -> nth_error xs j = Some y -> v x < v y.

(** [x] and [y] are the i-th elements. *)
Definition node {T} (xs ys : list T) (i : nat) (x y : T) : Prop :=
  nth_error xs i = Some x /\ nth_error ys i = Some y.

(** Element j of a vector, 0 outside. *)
Definition el (x : list R) (j : nat) : R := nth j x 0.
(** Element (i, j) of a matrix, 0 outside. *)
Definition entry (A : list (list R)) (i j : nat) : R := el (nth i A []) j.
Fixpoint Rsum (n : nat) (f : nat -> R) : R :=
  match n with O => 0 | Datatypes.S n' => Rsum n' f + f n' end.

(** n x n matrices; tridiagonal ones; strictly diagonally dominant ones *)
Definition square (n : nat) (A : list (list R)) : Prop :=
  length A = n /\ Forall (fun row => length row = n) A.
Definition tridiagonal (A : list (list R)) : Prop :=
  forall i j, (i + 1 < j \/ j + 1 < i)%nat -> entry A i j = 0.
Definition dominant (n : nat) (A : list (list R)) : Prop :=
  forall i, (i < n)%nat ->
    Rsum n (fun j => if Nat.eqb i j then 0 else Rabs (entry A i j)) < Rabs (entry A i i).

(** x solves A x = b. *)
Definition solves (n : nat) (A : list (list R)) (x b : list R) : Prop :=
  length x = n /\ forall i, (i < n)%nat -> Rsum n (fun j => entry A i j * el x j) = el b i.

(** The determinants of the leading blocks of a tridiagonal matrix: minor k and minor
    k+1, where minor k belongs to the first k rows and columns. *)
Fixpoint minors (A : list (list R)) (k : nat) : R * R :=
  match k with
  | O => (1, entry A 0 0)
  | Datatypes.S k' =>
      let '(p, q) := minors A k' in
      (q, entry A k k * q - entry A k k' * entry A k' k * p)
  end.
Definition minor (A : list (list R)) (k : nat) : R := fst (minors A k).
