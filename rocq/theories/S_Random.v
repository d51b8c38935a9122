(** Client programs and specification vocabulary for the random module. *)
From Coq Require Import List ZArith Bool Reals.
From Verif Require Import M_Num M_Outcome M_Random.
Import ListNotations.

Section Spec.
Context {T : Type} {num : Num T}.

(** A client asks a generator for one draw from each distribution of a list, whatever
    happens (exceptions caught): the outcomes in order, and the generator afterwards. *)
Fixpoint draws (env : Env T) (ds : list (Distr T)) (g : Gen T) : list (outcome T) * Gen T :=
  match ds with
  | [] => ([], g)
  | d :: ds' =>
      let (o, g1) := draw env d g in
      let (os, g2) := draws env ds' g1 in
      (o :: os, g2)
  end.

(** The coordinates of a sequence of [dim]-dimensional points in reading order: number
    [i] is coordinate [i mod dim] of point [i / dim]. *)
Definition coordinate (env : Env T) (k : QKind) (seed dim : Z) (i : nat) : T :=
  e_point env k seed dim (i / Z.to_nat dim) (Z.of_nat (i mod Z.to_nat dim)).

End Spec.

(** What the standard guarantees about single results of std distributions. *)
Definition env_respects_std (env : Env R) : Prop :=
  (forall s h a b, (a < b)%R ->
     (a <= e_real env s (EvDraw (SUniform a b) :: h) < b)%R) /\
  (forall s h l, (0 < l)%R -> (0 <= e_real env s (EvDraw (SExponential l) :: h))%R) /\
  (forall s h a b, (0 < a)%R -> (0 < b)%R -> (0 <= e_real env s (EvDraw (SGamma a b) :: h))%R) /\
  (forall s h, (0 <= e_int env s h)%Z).
