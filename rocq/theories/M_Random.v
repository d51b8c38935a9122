(** src/random/**, include/random/**: distributions and number generators.

    The library's generators call the C++ standard library (mt19937 and the std
    distributions) and boost (Sobol and Faure sequences).  Both are oracles here,
    collected in [Env]:
    - a pseudo-random draw is an arbitrary function of the seed the engine was built
      with and of everything the engine has been asked since ([Ev]: std distribution
      objects created and draws made, in order), so two runs making the same requests
      see the same draws and nothing else is assumed;
    - a quasi-random point is an arbitrary function of the sequence, the seed, the
      dimension, the index of the point and the coordinate.
    Not modelled: boost's rejection of dimensions and seeds beyond its tables. *)
From Coq Require Import List ZArith Bool.
From Verif Require Import M_Num M_Outcome.
Import ListNotations.

Inductive QKind := Sobol | Faure.

Section Random.
Context {T : Type} {num : Num T}.
Local Open Scope num_scope.

(** The std:: distribution objects, with the parameters they are constructed with. *)
Inductive StdDist :=
| SNormal (mu sigma : T)          (* std::normal_distribution<>(mu, sigma) *)
| SPoisson (mean : T)             (* std::poisson_distribution<>(mean) *)
| SExponential (lambda : T)       (* std::exponential_distribution<>(lambda) *)
| SGamma (shape scale : T)        (* std::gamma_distribution<>(shape, scale) *)
| SUniform (a b : T).             (* std::uniform_real_distribution<>(a, b) *)

(** The library's distribution classes: include/random/distribution/*.h *)
Inductive Distr :=
| DNormal (mu sigma : T)
| DStdNormal
| DPoisson (lambda : T)
| DExponential (lambda : T)
| DGamma (alpha beta : T)
| DUniform (a b : T).

(** The constructors: normal_distrib.cpp:5-9, standard_normal_distribution.cpp:5-6,
    poisson_distrib.cpp:5-10, exponential_distr.cpp:5-9, gamma_distrib.cpp:5-10,
    continuous_uniform_distrib.cpp:4-8.  The std object is built in the initialiser
    list, before the check; for parameters the check rejects this breaks a precondition
    of the std constructor, which is taken to have no effect. *)
Definition Distr_ctor (d : Distr) : outcome Distr :=
  match d with
  | DNormal mu sigma => if sigma <=? n0 then Throw InvalidArgument else Ok d
  | DStdNormal => if n1 <=? n0 then Throw InvalidArgument else Ok d
  | DPoisson lambda => if lambda <=? n0 then Throw InvalidArgument else Ok d
  | DExponential lambda => if lambda <=? n0 then Throw InvalidArgument else Ok d
  | DGamma alpha beta =>
      if (alpha <=? n0) || (beta <=? n0) then Throw InvalidArgument else Ok d
  | DUniform a b => if a >=? b then Throw InvalidArgument else Ok d
  end.

(** The std object each of them holds (the same initialiser lists).
    continuous_uniform_distrib.h:19 and .cpp:4-5: uniform_dist_ is not in the
    initialiser list, so it is default constructed and covers [0, 1). *)
Definition std_object (d : Distr) : StdDist :=
  match d with
  | DNormal mu sigma => SNormal mu sigma
  | DStdNormal => SNormal n0 n1
  | DPoisson lambda => SPoisson lambda
  | DExponential lambda => SExponential lambda
  | DGamma alpha beta => SGamma alpha (n1 / beta)
  | DUniform a b => SUniform n0 n1
  end.

(** standard_normal_distribution.cpp:23-42 *)
Definition a0 : T := lit 250662823884 11.
Definition a1 : T := lit (-1861500062529) 11.
Definition a2 : T := lit 4139119773534 11.
Definition a3 : T := lit (-2544106049637) 11.
Definition b0 : T := lit (-847351093090) 11.
Definition b1 : T := lit 2308336743743 11.
Definition b2 : T := lit (-2106224101826) 11.
Definition b3 : T := lit 313082909833 11.
Definition c0 : T := lit 3374754822726147 16.
Definition c1 : T := lit 9761690190917186 16.
Definition c2 : T := lit 1607979714918209 16.
Definition c3 : T := lit 276438810333863 16.
Definition c4 : T := lit 38405729373609 16.
Definition c5 : T := lit 3951896511919 16.
Definition c6 : T := lit 321767881768 16.
Definition c7 : T := lit 2888167364 16.
Definition c8 : T := lit 3960315187 16.

(** standard_normal_distribution.cpp:10-61 *)
Definition snd_inv_cdf (quantile : T) : outcome T :=
  if (quantile <=? n0) || (quantile >=? n1) then Throw InvalidArgument
  else
    let sup := quantile >? nhalf in
    let up := if sup then n1 - quantile else quantile in
    let x := up - nhalf in
    if nabs x <? lit 42 2 then
      let r := x * x in
      let r := x * (((a3*r + a2)*r + a1)*r + a0) / ((((b3*r + b2)*r + b1)*r + b0)*r + n1) in
      Ok (if sup then - r else r)
    else
      let r := nlog (- nlog up) in
      let r := c0 + r*(c1 + r*(c2 + r*(c3 + r*(c4 + r*(c5 + r*(c6 + r*(c7 + r*c8))))))) in
      Ok (if sup then r else - r).

(** normal_distrib.cpp:13-15, poisson_distrib.cpp:14-16, exponential_distr.cpp:13-15,
    gamma_distrib.cpp:14-16, continuous_uniform_distrib.cpp:12-14 *)
Definition inv_cdf (d : Distr) (quantile : T) : outcome T :=
  match d with
  | DStdNormal => snd_inv_cdf quantile
  | _ => Throw LogicError
  end.

(** ** Generators *)

Inductive Ev := EvNew (s : StdDist) | EvDraw (s : StdDist).

Record Env := mkEnv {
  (* what an engine returns for a draw; the list is what it was asked, latest first *)
  e_real : Z -> list Ev -> T;
  (* the same for a std::poisson_distribution<int>, whose result is an int *)
  e_int : Z -> list Ev -> Z;
  (* coordinate of a point: sequence, seed, dimension, index of the point, coordinate *)
  e_point : QKind -> Z -> Z -> nat -> Z -> T;
  (* sobol::max() and faure::max() *)
  e_max : QKind -> T
}.

(** base_generator.h:23-24, base_quasi_random_generator.h, pseudo_random_generator.h.
    [gQuasi = None] is the PseudoRandomNumberGenerator. *)
Record Gen := mkGen {
  gQuasi : option QKind;
  gDim : Z;              (* dim_, unsigned int *)
  gSeed : Z;             (* seed_, unsigned int *)
  gStep : Z;             (* step_, int *)
  gPoint : list T;       (* point_ *)
  gNext : nat;           (* index of the point the next generate() writes *)
  gEngine : Z;           (* seed with which generator_ (mt19937) was constructed *)
  gHist : list Ev        (* what generator_ has been asked, latest first *)
}.

(** [generate(point_.begin(), point_.end())] *)
Definition the_point (env : Env) (k : QKind) (seed dim : Z) (i : nat) : list T :=
  map (fun c => e_point env k seed dim i (Z.of_nat c)) (seq 0 (Z.to_nat dim)).

(** std::mt19937::default_seed *)
Definition mt_default_seed : Z := 5489.

(** base_generator.cpp:11-16, pseudo_random_generator.h: generator_ is default
    constructed; seed_ is stored only.  The check [seed_ < 0] on an unsigned value
    never holds. *)
Definition Pseudo_ctor (dim seed : Z) : Gen :=
  mkGen None dim seed 0 [] 0 mt_default_seed [].
(** base_generator.cpp:5-9: [rd] is the value std::random_device returned *)
Definition Pseudo_ctor1 (dim rd : Z) : Gen := Pseudo_ctor dim rd.

(** sobol_quasi_random_generator.cpp:11-16, faure_quasi_random_generator.cpp:11-16 (the
    argument order of the definitions), base_quasi_random_generator.cpp:10-13 *)
Definition Quasi_ctor (env : Env) (k : QKind) (dim seed : Z) : Gen :=
  mkGen (Some k) dim seed 0 (the_point env k seed dim 0) 1 mt_default_seed [].
(** sobol_quasi_random_generator.cpp:5-9, faure_quasi_random_generator.cpp:5-9 *)
Definition Quasi_ctor1 (env : Env) (k : QKind) (dim rd : Z) : Gen := Quasi_ctor env k dim rd.

(** The two-argument constructors as a client calls them, with the parameter names of the
    headers: sobol_quasi_random_generator.h:12 declares (dim, seed) and
    faure_quasi_random_generator.h:12 declares (seed, dim); both definitions (line 11 of
    the .cpp files) take the dimension first. *)
Definition SobolGenerator_new (env : Env) (dim seed : Z) : Gen := Quasi_ctor env Sobol dim seed.
Definition FaureGenerator_new (env : Env) (seed dim : Z) : Gen := Quasi_ctor env Faure seed dim.

(** base_generator.cpp:20-22 *)
Definition getDim (g : Gen) : Z := gDim g.

(** Computations that use a generator: it keeps its state also when they throw. *)
Definition SM (A : Type) : Type := Gen -> outcome A * Gen.
Definition sret {A} (a : A) : SM A := fun g => (Ok a, g).
Definition sbind {A B} (m : SM A) (f : A -> SM B) : SM B := fun g =>
  match m g with
  | (Ok a, g') => f a g'
  | (Throw e, g') => (Throw e, g')
  | (UB, g') => (UB, g')
  end.
Definition slift {A} (m : outcome A) : SM A := fun g => (m, g).

(** Constructing a distribution object of the library. *)
Definition new_dist (d : Distr) : SM Distr := fun g =>
  match Distr_ctor d with
  | Ok _ => (Ok d, mkGen (gQuasi g) (gDim g) (gSeed g) (gStep g) (gPoint g) (gNext g) (gEngine g)
                     (EvNew (std_object d) :: gHist g))
  | Throw e => (Throw e, g)
  | UB => (UB, g)
  end.

Definition with_hist (g : Gen) (h : list Ev) : Gen :=
  mkGen (gQuasi g) (gDim g) (gSeed g) (gStep g) (gPoint g) (gNext g) (gEngine g) h.

(** sobol_quasi_random_generator.cpp:20-30 and faure_quasi_random_generator.cpp:20-30 up
    to the inversion.  [step_ >= dim_] converts the int to unsigned. *)
Definition quasi_uniform (env : Env) (k : QKind) : SM T := fun g =>
  let g1 :=
    if (gDim g <=? gStep g mod UINT_MOD)%Z
    then mkGen (gQuasi g) (gDim g) (gSeed g) 0
           (the_point env k (gSeed g) (gDim g) (gNext g)) (Datatypes.S (gNext g)) (gEngine g) (gHist g)
    else g in
  match vget (gPoint g1) (gStep g1) with
  | Ok p =>
      if (gStep g1 =? INT_MAX)%Z then (UB, g1)
      else (Ok (p / e_max env k),
            mkGen (gQuasi g1) (gDim g1) (gSeed g1) (gStep g1 + 1) (gPoint g1) (gNext g1)
              (gEngine g1) (gHist g1))
  | Throw e => (Throw e, g1)
  | UB => (UB, g1)
  end.

(** operator(): pseudo_random_generator.cpp:7-9 (dist(generator_)), and the two
    quasi-random ones. *)
Definition draw (env : Env) (d : Distr) : SM T := fun g =>
  match gQuasi g with
  | None =>
      let h := EvDraw (std_object d) :: gHist g in
      (Ok (match d with
           | DPoisson _ => nofZ (e_int env (gEngine g) h)
           | _ => e_real env (gEngine g) h
           end), with_hist g h)
  | Some k => sbind (quasi_uniform env k) (fun u => slift (inv_cdf d u)) g
  end.

(** static_cast<int>(generator(poissonDist)).  The int a std::poisson_distribution
    returns goes through double and back, which is exact. *)
Definition draw_poisson (env : Env) (lambda : T) : SM Z := fun g =>
  match gQuasi g with
  | None =>
      let h := EvDraw (std_object (DPoisson lambda)) :: gHist g in
      (Ok (e_int env (gEngine g) h), with_hist g h)
  | Some k => sbind (draw env (DPoisson lambda)) (fun _ => slift UB) g
  end.

(** Loops over [SM] as in M_Outcome.v. *)
Section SLoops.
Context {S : Type}.
Fixpoint siter (n : nat) (i : Z) (body : Z -> S -> SM S) (s : S) : SM S :=
  match n with
  | O => sret s
  | Datatypes.S n' => sbind (body i s) (siter n' (i + 1)%Z body)
  end.
Definition sfor_int (n : Z) (body : Z -> S -> SM S) (s : S) : SM S :=
  if (n <=? INT_MAX)%Z then siter (Z.to_nat n) 0 body s
  else sbind (siter (Z.to_nat (INT_MAX + 1)) 0 body s) (fun _ => slift UB).
End SLoops.

End Random.
Arguments Env T : clear implicits.
Arguments Gen T : clear implicits.
Arguments Distr T : clear implicits.
Arguments StdDist T : clear implicits.
Arguments Ev T : clear implicits.
Arguments SM T A : clear implicits.

Declare Scope sm_scope.
Delimit Scope sm_scope with sm.
Notation "x <- m ;; f" := (sbind m (fun x => f))
  (at level 100, m at level 99, right associativity) : sm_scope.
