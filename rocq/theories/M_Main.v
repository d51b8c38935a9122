(** main.cpp: the program.  What it prints and how it ends.

    [rdSobol] and [rdPseudo] are the values std::random_device returned for the two
    generators.  The objects live in a [World]: market 0 is the singleton, generator 0 the
    SobolGenerator, generator 1 the PseudoRandomNumberGenerator.
    Simplifications: the labels and the decimal formatting of the output are left out; the
    destructors at the end of main, which cannot throw, are left out; an exception leaves
    main and ends the program. *)
From Coq Require Import String List ZArith Bool.
From Verif Require Import M_Num M_Outcome M_Dict M_Stock M_Market M_Payoff M_Option M_Random M_Model
  M_Regression M_MonteCarlo M_Builder.
Import ListNotations.
Local Open Scope string_scope.

Section Main.
Context {T : Type} {num : Num T}.
Context (env : Env T) (la : LinAlg T).

(** main.cpp:52-79 *)
Definition main_ticker : string := "AAPL".
Definition main_T : T := n1.
Definition main_K : T := lit 100 0.
Definition main_S : T := lit 100 0.
Definition main_sigma : T := lit 2 1.
Definition main_r : T := lit 5 2.
Definition main_dim : Z := 1000.
Definition main_kappa : T := lit 621 2.
Definition main_theta : T := lit 19 3.
Definition main_sigma_v : T := lit 61 2.
Definition main_rho : T := lit (-7) 1.
Definition main_v0 : T := lit 10201 6.
Definition main_lambda : T := lit 1 1.
Definition main_muJ : T := lit (-5) 2.
Definition main_sigmaJ : T := lit 2 1.
Definition main_eta1 : T := lit 5 0.
Definition main_eta2 : T := lit 7 0.
Definition main_p : T := lit 5 1.
Definition main_thetaGamma : T := lit (-5) 3.
Definition main_nu : T := lit 5 1.
(** main.cpp:125 *)
Definition main_N : Z := 100000.

(** A call on the market data, with the state it leaves. *)
Definition on_market {A} (r : Res T A) : outcome (A * Market T) :=
  bind (res r) (fun a => Ok (a, post r)).

(** setOption(option).setStockPriceModel(model).build() *)
Definition configure (b : Builder T) (o : Option T) (m : ModelObj T) (W : World T)
    : outcome (Pricer T * Builder T) :=
  let (r, b1) := setOption (Some o) b in
  bind r (fun _ =>
  let '(p, b2, _) := build 0 (setStockPriceModel (Some m) b1) W in
  bind p (fun p => Ok (p, b2))).

(** main.cpp:81-122: the world and the two Asian pricers.  Objects main creates but never
    uses afterwards are created here too, because their constructors could throw.
    americanPricer is built on the Variance Gamma model and never run. *)
Definition main_setup (rdSobol rdPseudo : Z) : outcome (World T * Pricer T * Pricer T) :=
  let w := MarketData_ctor in                                             (* 81 *)
  bind (on_market (addStock main_ticker main_S main_sigma None w)) (fun '(_, w) =>   (* 82 *)
  bind (on_market (setR main_r w)) (fun '(_, w) =>                        (* 83 *)
  let params := setParameter "K" (VDouble main_K)
               (setParameter "T" (VDouble main_T)
               (setParameter "ticker" (VString main_ticker) [])) in       (* 85-88 *)
  let generator := Quasi_ctor1 env Sobol main_dim rdSobol in              (* 90 *)
  let prng := Pseudo_ctor1 main_dim rdPseudo in                           (* 91 *)
  bind (GBM_ctor main_ticker w) (fun gbm =>                               (* 92 *)
  bind (GBM_ctor main_ticker w) (fun gbm2 =>                              (* 93 *)
  bind (Heston_ctor main_ticker w main_kappa main_theta main_sigma_v main_rho main_v0 None) (fun heston =>
  bind (Merton_ctor main_ticker w main_lambda main_muJ main_sigmaJ) (fun merton =>
  bind (Kou_ctor main_ticker w main_lambda main_p main_eta1 main_eta2) (fun kou =>
  bind (VarianceGamma_ctor main_ticker w main_nu main_thetaGamma) (fun vg =>
  bind (Bates_ctor main_ticker w main_kappa main_theta main_sigma_v main_rho main_v0
          main_lambda main_muJ main_sigmaJ None) (fun bates =>            (* 95-99 *)
  bind (Basis_ctor Laguerre 3) (fun laguerre =>                           (* 100 *)
  let W w := mkWorld [w] [generator; prng] in
  bind (on_market (createPutOption American params w)) (fun '(americanPut, w) =>    (* 103-104 *)
  let (r, b1) := setOption (Some americanPut) (Builder_new CAmerican) in            (* 106-107 *)
  bind r (fun _ =>
  let b2 := setStockPriceModel (Some (mkModelObj vg 0 1)) (setBasisFunctionStrategy (Some laguerre) b1) in
  let '(americanPricer, _, _) := build 0 b2 (W w) in                                (* 108-110 *)
  bind americanPricer (fun _ =>
  bind (on_market (createCallOption European params w)) (fun '(_, w) =>             (* 112-113 *)
  bind (on_market (createPutOption European params w)) (fun '(_, w) =>              (* 114 *)
  bind (on_market (createCallOption ArithmeticAsian params w)) (fun '(asian, w) =>  (* 116-117 *)
  bind (on_market (createCallOption ArithmeticAsian params w)) (fun '(_, w) =>      (* 118 *)
  bind (configure (Builder_new (CAsian Arithmetic)) asian (mkModelObj gbm 0 1) (W w)) (fun '(p1, b) =>
  bind (configure b asian (mkModelObj gbm2 0 0) (W w)) (fun '(p2, _) =>             (* 120-122 *)
  Ok (W w, p1, p2)))))))))))))))))))).

(** main.cpp:51-203: what is printed and how the program ends.  Lines 124-132 run the solver on
    the first pricer, then on the second. *)
Definition main_program (rdSobol rdPseudo : Z) : list T * outcome unit :=
  match main_setup rdSobol rdPseudo with
  | Ok (W, p1, p2) =>
      let s := setPricer (Some p1) (setN main_N MCSolver_default) in
      match solver_solve env la s W with
      | (Ok v1, W1) =>
          match solver_solve env la (setPricer (Some p2) s) W1 with
          | (Ok v2, _) => ([v1; v2], Ok tt)
          | (Throw e, _) => ([v1], Throw e)
          | (UB, _) => ([v1], UB)
          end
      | (Throw e, _) => ([], Throw e)
      | (UB, _) => ([], UB)
      end
  | Throw e => ([], Throw e)
  | UB => ([], UB)
  end.
End Main.
