(** Order statements about doubles that may be NaN. *)
From Coq Require Import Reals.
From Verif Require Import M_Num S_Double.
Local Open Scope R_scope.

(** Not a negative number. *)
Definition nonneg (x : b64) : Prop := notnan x -> 0 <= val x.
(** [x <= y] if both are numbers. *)
Definition below (x y : b64) : Prop := notnan x -> notnan y -> val x <= val y.
