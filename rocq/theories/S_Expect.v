(** Expectations of the computations that draw from a pseudo-random generator.

    A [sampler] is the tree of all requests such a computation can make of the engine: a
    distribution object created, a draw from one, and what happens next for every value
    the draw may have.  A computation has mean [m] when it follows a sampler, whatever
    values the engine returns, and [m] is the mean of the sampler for independent draws
    that have the laws the std:: distributions stand for.  That std::mt19937 behaves like
    independent draws is not claimed anywhere; it is what "expectation" means here. *)
From Coq Require Import List ZArith Reals.
From Coquelicot Require Import Coquelicot.
From Verif Require Import M_Num M_Outcome M_Random S_Prob.
Import ListNotations.
Local Open Scope R_scope.

Inductive sampler (A : Type) :=
| Done (o : outcome A)
| Create (s : StdDist R) (k : sampler A)
| Sample (s : StdDist R) (k : R -> sampler A)
| Count (mean : R) (k : Z -> sampler A).      (* std::poisson_distribution<int> *)
Arguments Done {A}. Arguments Create {A}. Arguments Sample {A}. Arguments Count {A}.

(** The sampler run on a generator: the values come from the environment, and the engine
    remembers the requests. *)
Fixpoint follow {A} (env : Env R) (p : sampler A) : SM R A :=
  match p with
  | Done o => fun g => (o, g)
  | Create s k => fun g => follow env k (with_hist g (EvNew s :: gHist g))
  | Sample s k => fun g =>
      let h := EvDraw s :: gHist g in follow env (k (e_real env (gEngine g) h)) (with_hist g h)
  | Count l k => fun g =>
      let h := EvDraw (SPoisson l) :: gHist g in follow env (k (e_int env (gEngine g) h)) (with_hist g h)
  end.

(** The integral over the positive half line. *)
Definition is_integral_pos (f : R -> R) (m : R) : Prop :=
  forall eps, 0 < eps -> exists d A, 0 < d < A /\ forall a b, 0 < a < d -> A < b ->
    exists I, is_RInt f a b I /\ Rabs (I - m) < eps.

(** Density of the gamma law up to the factor that gives it mass one. *)
Definition gamma_weight (shape scale x : R) : R := Rpower x (shape - 1) * exp (- (x / scale)).

(** The values a real draw can have, and the mean [m] of [f] of such a draw. *)
Definition support (s : StdDist R) (x : R) : Prop :=
  match s with
  | SExponential _ | SGamma _ _ => 0 < x
  | SUniform a b => a <= x < b
  | _ => True
  end.
Definition is_law (s : StdDist R) (f : R -> R) (m : R) : Prop :=
  match s with
  | SNormal mu sigma => is_Enormal (fun z => f (mu + sigma * z)) m
  | SExponential lambda => is_integral_pos (fun x => f x * (lambda * exp (- (lambda * x)))) m
  | SGamma shape scale => exists total, 0 < total /\
      is_integral_pos (gamma_weight shape scale) total /\
      is_integral_pos (fun x => f x * gamma_weight shape scale x) (m * total)
  | SUniform a b => a < b /\ is_RInt f a b (m * (b - a))
  | SPoisson _ => False      (* only drawn as a count *)
  end.

(** The mean of [f] of the result.  A sampler that can fail has none. *)
Fixpoint is_E {A} (p : sampler A) (f : A -> R) (m : R) : Prop :=
  match p with
  | Done (Ok a) => f a = m
  | Done _ => False
  | Create _ k => is_E k f m
  | Sample s k => exists h : R -> R, (forall x, support s x -> is_E (k x) f (h x)) /\ is_law s h m
  | Count l k => exists h : nat -> R, (forall n, is_E (k (Z.of_nat n)) f (h n)) /\ is_Epoisson l h m
  end.

(** E f(result) = m for the computation [c] started on the generator [g]. *)
Definition is_mean {A} (c : Env R -> SM R A) (g : Gen R) (f : A -> R) (m : R) : Prop :=
  exists p, (forall env, c env g = follow env p g) /\ is_E p f m.
