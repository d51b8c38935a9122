(** The expectation of a Monte Carlo price: the price and the state the generator is left
    in are those of a sampler started on the pricer's generator. *)
From Coq Require Import List ZArith Reals.
From Verif Require Import M_Num M_Outcome M_Stock M_Market M_Option M_Random M_Model M_Regression M_MonteCarlo M_Builder
  S_MonteCarlo S_Expect.
Local Open Scope R_scope.

Definition is_price_mean (la : LinAlg R) (P : Pricer R) (W : World R) (N : Z) (f : R -> R) (m : R) : Prop :=
  exists g p, nth_error (wGens W) (moGen (pcModel P)) = Some g /\
    (forall env, fst (calculatePrice env la P W N) = fst (follow env p g) /\
                 moved P W (snd (follow env p g)) (snd (calculatePrice env la P W N))) /\
    is_E p f m.
