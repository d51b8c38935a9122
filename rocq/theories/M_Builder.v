(** src/solver/monte_carlo/builder/*.cpp and src/solver/monte_carlo/mc_solver.cpp.

    Shared objects are referred to by location: market data objects and generators live
    in a [World] ([wMarkets], [wGens]); location 0 of [wMarkets] is the MarketData
    singleton, others are market data objects injected with setMarketData.  A null
    shared_ptr is [None]. *)
From Coq Require Import String List ZArith Bool.
From Verif Require Import M_Num M_Outcome M_Dict M_Stock M_Market M_Payoff M_Option M_Random M_Model
  M_Regression M_MonteCarlo.
Import ListNotations.

(** The builder classes, one per pricer class. *)
Inductive PricerClass :=
| CSinglePath | CAsian (k : AsianKind) | CBarrier (k : KnockKind) | CLookback (k : LookbackKind)
| CAmerican.

(** The class each setOption casts to: mc_builder_single_path.cpp:8 (SinglePathOption is the
    base of the European, digital and double digital classes), mc_builder_asian.cpp:7 and 26,
    mc_builder_barrier.cpp:8 and 27, mc_lookback_builder.cpp:9 and 30, mc_builder_american.cpp:12 *)
Definition accepts (c : PricerClass) (k : OptionKind) : bool :=
  match c, k with
  | CSinglePath, (European | Digital | DoubleDigitalK) => true
  | CAsian Arithmetic, ArithmeticAsian => true
  | CAsian Geometric, GeometricAsian => true
  | CBarrier KIn, KnockIn => true
  | CBarrier KOut, KnockOut => true
  | CLookback Floating, FloatingLookback => true
  | CLookback Fixed, FixedLookback => true
  | CAmerican, American => true
  | _, _ => false
  end.

Section Builder.
Context {T : Type} {num : Num T}.

Record World := mkWorld { wMarkets : list (Market T); wGens : list (Gen T) }.

(** A StockModel object: base_model.h:31-34 *)
Record ModelObj := mkModelObj { moModel : StockModel T; moMarket : nat; moGen : nat }.

(** The pricer objects (base_mc.h:18-20 and the derived headers). *)
Record Pricer := mkPricer {
  pcClass : PricerClass;
  pcOption : Option T;
  pcMarket : option nat;
  pcModel : ModelObj;
  pcBasis : option (Basis T);         (* AmericanMCPricer only *)
  pcRegression : option (Regression T)
}.

(** base_mc_builder.h:23-25 and the derived headers *)
Record Builder := mkBuilder {
  bClass : PricerClass;
  bMarket : option nat;
  bModel : option ModelObj;
  bOption : option (Option T);
  bBasis : option (Basis T);
  bRegression : option (Regression T)
}.

(** base_mc_builder.cpp:6-7; mc_builder_american.cpp:5-7 for the strategies *)
Definition Builder_new (c : PricerClass) : Builder :=
  mkBuilder c (Some 0%nat) None None
    (match c with CAmerican => Some (Monomial 3) | _ => None end)
    (match c with CAmerican => Some LeastSquares | _ => None end).

(** base_mc_builder.cpp:11-14 and 16-19 *)
Definition setMarketData (w : option nat) (b : Builder) : Builder :=
  mkBuilder (bClass b) w (bModel b) (bOption b) (bBasis b) (bRegression b).
Definition setStockPriceModel (m : option ModelObj) (b : Builder) : Builder :=
  mkBuilder (bClass b) (bMarket b) m (bOption b) (bBasis b) (bRegression b).
(** mc_builder_american.cpp:19-27.  Only AmericanMCBuilder has these two functions; a call
    on another builder does not compile, here it has no effect. *)
Definition setBasisFunctionStrategy (x : option (Basis T)) (b : Builder) : Builder :=
  match bClass b with
  | CAmerican => mkBuilder (bClass b) (bMarket b) (bModel b) (bOption b) x (bRegression b)
  | _ => b
  end.
Definition setRegressionStrategy (x : option (Regression T)) (b : Builder) : Builder :=
  match bClass b with
  | CAmerican => mkBuilder (bClass b) (bMarket b) (bModel b) (bOption b) (bBasis b) x
  | _ => b
  end.

(** setOption of each builder (lines cited at [accepts]): option_ is assigned the result of
    the cast before the check, so a failed cast also clears it.  A null argument is a
    failed cast. *)
Definition setOption (o : option (Option T)) (b : Builder) : outcome unit * Builder :=
  let cast := match o with
              | Some o' => if accepts (bClass b) (optKind o') then Some o' else None
              | None => None
              end in
  let b' := mkBuilder (bClass b) (bMarket b) (bModel b) cast (bBasis b) (bRegression b) in
  match cast with
  | Some _ => (Ok tt, b')
  | None => (Throw InvalidArgument, b')
  end.

Definition market_at (W : World) (l : option nat) : outcome (Market T) :=
  match l with
  | None => UB
  | Some i => match nth_error (wMarkets W) i with Some w => Ok w | None => UB end
  end.

(** build: mc_builder_single_path.cpp:15-23, mc_builder_asian.cpp:14-22 and 33-41,
    mc_builder_barrier.cpp:15-23 and 34-42, mc_lookback_builder.cpp:16-24 and 37-45,
    mc_builder_american.cpp:29-38.  [rd] is the value of std::random_device for the seed of
    the default generator PseudoRandomNumberGenerator(52). *)
Definition build (rd : Z) (b : Builder) (W : World) : outcome Pricer * Builder * World :=
  match bOption b with
  | None => (Throw LogicError, b, W)
  | Some o =>
      match bModel b with
      | Some m => (Ok (mkPricer (bClass b) o (bMarket b) m (bBasis b) (bRegression b)), b, W)
      | None =>
          match bMarket b with
          | None => (UB, b, W)
          | Some l =>
              match bind (market_at W (Some l)) (GBM_ctor (optTicker o)) with
              | Ok gbm =>
                  let m := mkModelObj gbm l (length (wGens W)) in
                  let b' := mkBuilder (bClass b) (bMarket b) (Some m) (bOption b) (bBasis b) (bRegression b) in
                  (Ok (mkPricer (bClass b) o (bMarket b) m (bBasis b) (bRegression b)), b',
                   mkWorld (wMarkets W) (wGens W ++ [Pseudo_ctor1 52 rd]))
              | Throw e => (Throw e, b, W)
              | UB => (UB, b, W)
              end
          end
      end
  end.

(** Calls on a builder, as data. *)
Inductive bcall :=
| BSetOption (o : option (Option T))
| BSetModel (m : option ModelObj)
| BSetMarket (w : option nat)
| BSetBasis (x : option (Basis T))
| BSetRegression (x : option (Regression T))
| BBuild (rd : Z).

Definition bstep (c : bcall) (s : Builder * World) : Builder * World :=
  let (b, W) := s in
  match c with
  | BSetOption o => (snd (setOption o b), W)
  | BSetModel m => (setStockPriceModel m b, W)
  | BSetMarket w => (setMarketData w b, W)
  | BSetBasis x => (setBasisFunctionStrategy x b, W)
  | BSetRegression x => (setRegressionStrategy x b, W)
  | BBuild rd => let '(_, b', W') := build rd b W in (b', W')
  end.
Definition brun (cs : list bcall) (s : Builder * World) : Builder * World :=
  fold_left (fun s c => bstep c s) cs s.

(** ** Pricing *)
Context (env : Env T) (la : LinAlg T).

(** calculatePrice, by the class of the pricer *)
Definition calculatePrice (P : Pricer) (W : World) (N : Z) : outcome T * World :=
  match market_at W (pcMarket P), market_at W (Some (moMarket (pcModel P))),
        nth_error (wGens W) (moGen (pcModel P)) with
  | Ok w, Ok wm, Some g =>
      let o := pcOption P in
      let m := moModel (pcModel P) in
      let run : SM T T :=
        match pcClass P with
        | CSinglePath => single_path_price env o w m wm N
        | CAsian k => asian_price env k o w m wm N
        | CBarrier k => barrier_price env k o w m wm N
        | CLookback k => lookback_price env k o w m wm N
        | CAmerican =>
            match pcBasis P, pcRegression P with
            | Some b, Some r => american_price env la o w m wm b r N
            | _, _ => slift UB
            end
        end in
      let (res, g') := run g in
      (res, mkWorld (wMarkets W)
              (firstn (moGen (pcModel P)) (wGens W) ++ g' :: skipn (Datatypes.S (moGen (pcModel P))) (wGens W)))
  | _, _, _ => (UB, W)
  end.

(** ** MCSolver: mc_solver.h:19-20, mc_solver.cpp *)
Record MCSolver := mkMCSolver { sN : Z; sPricer : option Pricer }.
(** mc_solver.h:12, mc_solver.cpp:5-6 *)
Definition MCSolver_new (N : Z) : MCSolver := mkMCSolver N None.
Definition MCSolver_default : MCSolver := MCSolver_new 100000.
(** mc_solver.cpp:15-17 and 19-21 *)
Definition setN (N : Z) (s : MCSolver) : MCSolver := mkMCSolver N (sPricer s).
Definition setPricer (p : option Pricer) (s : MCSolver) : MCSolver := mkMCSolver (sN s) p.
(** mc_solver.cpp:8-13 *)
Definition solver_solve (s : MCSolver) (W : World) : outcome T * World :=
  match sPricer s with
  | None => (Throw LogicError, W)
  | Some p => calculatePrice p W (sN s)
  end.

Inductive scall := SSetN (N : Z) | SSetPricer (p : option Pricer) | SSolve.
Definition sstep (c : scall) (x : MCSolver * World) : MCSolver * World :=
  let (s, W) := x in
  match c with
  | SSetN N => (setN N s, W)
  | SSetPricer p => (setPricer p s, W)
  | SSolve => (s, snd (solver_solve s W))
  end.
Definition srun (cs : list scall) (x : MCSolver * World) : MCSolver * World :=
  fold_left (fun x c => sstep c x) cs x.

End Builder.
Arguments World T : clear implicits.
Arguments ModelObj T : clear implicits.
Arguments Pricer T : clear implicits.
Arguments Builder T : clear implicits.
Arguments bcall T : clear implicits.
Arguments MCSolver T : clear implicits.
Arguments scall T : clear implicits.
