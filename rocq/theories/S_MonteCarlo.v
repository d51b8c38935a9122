(** Specification vocabulary for the Monte Carlo pricers (exact arithmetic). *)
From Coq Require Import String List ZArith Reals Bool.
From Verif Require Import M_Num M_Outcome M_Stock M_Market M_Payoff M_Option M_Random M_Model
  M_Regression M_MonteCarlo M_Builder S_Model.
Import ListNotations.
Local Open Scope R_scope.

(** [n] runs of a simulation one after another on the same generator; the first failure
    ends them. *)
Fixpoint runs {T A} (sim : SM T A) (n : nat) (g : Gen T) : outcome (list A) * Gen T :=
  match n with
  | O => (Ok [], g)
  | S n' =>
      match sim g with
      | (Ok x, g1) =>
          match runs sim n' g1 with
          | (Ok l, g2) => (Ok (x :: l), g2)
          | (Throw e, g2) => (Throw e, g2)
          | (UB, g2) => (UB, g2)
          end
      | (Throw e, g1) => (Throw e, g1)
      | (UB, g1) => (UB, g1)
      end
  end.

Definition Rmean (l : list R) : R := Rsum l / INR (length l).

(** Smallest and largest element of a nonempty list. *)
Definition lmin (l : list R) : R := match l with [] => 0 | x :: l' => fold_right Rmin x l' end.
Definition lmax (l : list R) : R := match l with [] => 0 | x :: l' => fold_right Rmax x l' end.

Definition geometric_mean (l : list R) : R := exp (Rmean (map ln l)).

Definition vanilla (ty : PayoffType) (K S : R) : R :=
  match ty with Call => Rmax (S - K) 0 | _ => Rmax (K - S) 0 end.

(** Terminal payoff of the one-price payoffs. *)
Definition terminal (p : Payoff R) (S : R) : R :=
  match p with
  | PVanilla ty K => vanilla ty K S
  | PDigital Call K => if Rlt_dec K S then 1 else 0
  | PDigital _ K => if Rlt_dec S K then 1 else 0
  | PDoubleDigital KL KU => if Rle_dec KL S then if Rle_dec S KU then 1 else 0 else 0
  | PFloating _ => 0
  end.

Definition touches (b : R * BarrierDirection) (x : R) : Prop :=
  match b with (B, Up) => B <= x | (B, Down) => x <= B end.
Definition touches_dec : forall b x, {touches b x} + {~ touches b x}.
Proof. intros [B []] x; apply Rle_dec. Defined.
Definition touched (b : R * BarrierDirection) (path : list R) : bool :=
  existsb (fun x => if touches_dec b x then true else false) path.

(** What an option that is not American pays at maturity on a path. *)
Definition path_value (o : Option R) (path : list R) : R :=
  let S_T := last path 0 in
  match optKind o with
  | European | Digital | DoubleDigitalK | American => terminal (optPayoff o) S_T
  | ArithmeticAsian => terminal (optPayoff o) (Rmean path)
  | GeometricAsian => terminal (optPayoff o) (geometric_mean path)
  | FixedLookback =>
      match getPayoffType (optPayoff o) with
      | Call => terminal (optPayoff o) (lmax path)
      | _ => terminal (optPayoff o) (lmin path)
      end
  | FloatingLookback =>
      match getPayoffType (optPayoff o) with
      | Call => S_T - lmin path
      | _ => lmax path - S_T
      end
  | KnockIn =>
      match optBarrier o with
      | Some b => if touched b path then terminal (optPayoff o) S_T else 0
      | None => 0
      end
  | KnockOut =>
      match optBarrier o with
      | Some b => if touched b path then 0 else terminal (optPayoff o) S_T
      | None => 0
      end
  end.

Definition call_or_put (ty : PayoffType) : Prop := ty = Call \/ ty = Put.

(** Options as the factories make them. *)
Definition wf_option (o : Option R) : Prop :=
  0 <= optT o /\
  match optKind o with
  | Digital => exists ty K, call_or_put ty /\ 0 <= K /\ optPayoff o = PDigital ty K
  | DoubleDigitalK => exists K1 K2, 0 <= K1 /\ 0 <= K2 /\ optPayoff o = PDoubleDigital K1 K2
  | FloatingLookback => exists ty, call_or_put ty /\ optPayoff o = PFloating ty
  | _ => exists ty K, call_or_put ty /\ 0 <= K /\ optPayoff o = PVanilla ty K
  end /\
  match optKind o with
  | KnockIn | KnockOut => exists b, optBarrier o = Some b
  | _ => optBarrier o = None
  end.

(** A pricer as the builders make it, in a world where its objects exist. *)
Definition wf_pricer (P : Pricer R) : Prop :=
  accepts (pcClass P) (optKind (pcOption P)) = true /\ wf_option (pcOption P).
Definition lives_in {T} (P : Pricer T) (W : World T) (w wm : Market T) (g : Gen T) : Prop :=
  market_at W (pcMarket P) = Ok w /\ market_at W (Some (moMarket (pcModel P))) = Ok wm /\
  nth_error (wGens W) (moGen (pcModel P)) = Some g.

(** The world after the pricer's generator moved to [g']. *)
Definition moved (P : Pricer R) (W : World R) (g' : Gen R) (W' : World R) : Prop :=
  wMarkets W' = wMarkets W /\ length (wGens W') = length (wGens W) /\
  forall i, nth_error (wGens W') i =
    if Nat.eqb i (moGen (pcModel P)) then Some g' else nth_error (wGens W) i.
