(** Quasi-random points as a client of the generator sees them. *)
From Coq Require Import List ZArith Bool Reals.
From Verif Require Import M_Num M_Outcome M_Random M_Model M_Option M_Market S_Random S_Double.
Import ListNotations.

Section Spec.
Context {T : Type} {num : Num T}.

(** Coordinate number [i] in reading order, scaled to the unit interval. *)
Definition scaled (env : Env T) (k : QKind) (seed dim : Z) (i : nat) : T :=
  (coordinate env k seed dim i / e_max env k)%num.

(** Point number [j] of the sequence, scaled to the unit cube. *)
Definition point (env : Env T) (k : QKind) (seed dim : Z) (j : nat) : list T :=
  map (fun c => e_point env k seed dim j (Z.of_nat c) / e_max env k)%num (seq 0 (Z.to_nat dim)).

(** Standard normals a model needs per date, for the models that need nothing else. *)
Definition normals_per_date (m : ModelKind T) : option Z :=
  match m with MGBM => Some 1%Z | MHeston _ _ _ _ _ _ => Some 2%Z | _ => None end.

(** An option some factory made. *)
Definition made (o : Option T) : Prop :=
  exists k params w, res (createCallOption k params w) = Ok o \/ res (createPutOption k params w) = Ok o.
End Spec.

(** NaN or strictly between 0 and 1. *)
Definition inside (x : b64) : Prop := notnan x -> (0 < val x < 1)%R.
