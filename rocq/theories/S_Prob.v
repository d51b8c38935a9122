(** Expectations used by the martingale statements, from first principles: improper
    Riemann integrals against the standard normal density, finitely many independent
    normals by iteration, and the Poisson law as a series. *)
From Coq Require Import List Reals.
From Coquelicot Require Import Coquelicot.
Import ListNotations.
Local Open Scope R_scope.

(** The integral of [f] over the whole line. *)
Definition is_integral (f : R -> R) (m : R) : Prop :=
  forall eps, 0 < eps -> exists A, 0 < A /\ forall a b, a < - A -> A < b ->
    exists I, is_RInt f a b I /\ Rabs (I - m) < eps.

(** The standard normal density. *)
Definition phi (z : R) : R := exp (- (z * z) / 2) / sqrt (2 * PI).

(** E f(Z) = m for Z standard normal. *)
Definition is_Enormal (f : R -> R) (m : R) : Prop := is_integral (fun z => f z * phi z) m.

(** E F(Z1,...,Zn) = m for independent standard normals. *)
Fixpoint is_Enormals (n : nat) (F : list R -> R) (m : R) : Prop :=
  match n with
  | O => F [] = m
  | S n' => exists h, (forall z, is_Enormals n' (fun l => F (z :: l)) (h z)) /\ is_Enormal h m
  end.

(** E f(N) = m for N Poisson with mean l. *)
Definition is_Epoisson (l : R) (f : nat -> R) (m : R) : Prop :=
  is_series (fun n => exp (- l) * (l ^ n / INR (fact n)) * f n) m.
