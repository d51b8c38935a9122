(** What a Monte Carlo pricer without early exercise pays on one path, in any arithmetic. *)
From Coq Require Import List ZArith Bool.
From Verif Require Import M_Num M_Outcome M_Payoff M_Option M_MonteCarlo M_Builder.
Import ListNotations.

Section Paths.
Context {T : Type} {num : Num T}.
Local Open Scope num_scope.

Definition final (p : list T) : T := last p n0.
Definition average (k : AsianKind) (p : list T) : T :=
  match k with
  | Arithmetic => fold_left nadd p n0 / nofZ (Z.of_nat (length p))
  | Geometric => nexp (fold_left nadd (map nlog p) n0 / nofZ (Z.of_nat (length p)))
  end.
(** A price at the barrier or beyond it. *)
Definition beyond (b : T * BarrierDirection) (x : T) : bool :=
  match b with (B, Up) => B <=? x | (B, Down) => x <=? B end.

(** std::min and std::max over the path, from +infinity and from -infinity. *)
Definition lowest (p : list T) : T := or_inf (fold_left min_from p None) (n1 / n0).
Definition highest (p : list T) : T := or_inf (fold_left max_from p None) (- (n1 / n0)).

Definition path_payoff (c : PricerClass) (o : Option T) (p : list T) : outcome T :=
  match c with
  | CSinglePath => option_payoff1 o (final p)
  | CAsian k => option_payoff1 o (average k p)
  | CBarrier k =>
      match optBarrier o with
      | Some b => let pays := option_payoff1 o (final p) in
                  match k, existsb (beyond b) p with
                  | KIn, true => pays
                  | KIn, false => Ok n0
                  | KOut, true => Ok n0
                  | KOut, false => pays
                  end
      | None => UB
      end
  | CLookback Floating => option_payoff2 o (final p)
      (match getPayoffType (optPayoff o) with Call => lowest p | _ => highest p end)
  | CLookback Fixed => option_payoff1 o
      (match getPayoffType (optPayoff o) with Call => highest p | _ => lowest p end)
  | CAmerican => UB
  end.

(** The discounted mean of the payoffs, in the order of the program. *)
Definition price_of (N : Z) (df : T) (payoffs : list T) : T :=
  (fold_left nadd payoffs n0 / nofZ N) * df.
End Paths.
