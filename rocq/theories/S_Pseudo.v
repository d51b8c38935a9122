(** Which models a pseudo-random generator can drive. *)
From Coq Require Import ZArith Bool.
From Verif Require Import M_Num M_Model.

(** The arguments of the distributions a model draws from are all positive: the Poisson mean
    over a step of length [dt], the jump rates and deviations, the gamma shape and scale. *)
Definition usable {T} {num : Num T} (k : ModelKind T) (dt : T) : bool :=
  let pos x := negb (nleb x n0) in
  match k with
  | MGBM | MHeston _ _ _ _ _ _ => true
  | MBates _ _ _ _ _ lambda _ sigmaJ _ => pos (nmul lambda dt) && pos sigmaJ
  | MKou lambda _ eta1 eta2 _ => pos (nmul lambda dt) && pos eta1 && pos eta2
  | MMerton lambda _ sigmaJ => pos (nmul lambda dt) && pos sigmaJ
  | MVarianceGamma nu _ _ => pos (ndiv dt nu) && pos nu
  end.
