(** The repository's own unit tests (the files below tests/unit), replayed on the model in binary64.

    These are tests of the model, not properties: they check that the model answers as the
    authors of the code expect their program to answer.  Each [Example] names the test it
    replays.  EXPECT_THROW(.., std::invalid_argument) is [Throw InvalidArgument], EXPECT_NO_THROW is
    [isOk], EXPECT_DOUBLE_EQ (equality up to 4 ulp) is checked as equality.
    Not replayed: EXPECT_NE of the addresses of an object and its clone (clones are values
    here) and the getType() and calc_price() of the class TestOption of test_base_option.cpp. *)
From Coq Require Import String List ZArith Bool.
From Verif Require Import M_Num M_Outcome M_Dict M_Stock M_Market M_Payoff M_Option M_Print M_Singleton.
Import ListNotations.
Local Open Scope string_scope.

Local Notation D n := (b64_ofZ n).
Definition throws {A} (x : outcome A) : bool := match x with Throw InvalidArgument => true | _ => false end.
Definition double_eq (x : outcome b64) (y : b64) : bool := match x with Ok v => b64_eqb v y | _ => false end.
Definition with_ok {A} (x : outcome A) (f : A -> bool) : bool := match x with Ok v => f v | _ => false end.

(** ** tests/unit/payoff *)
(** test_payoff_vanilla.cpp:6-10, 46-50; test_payoff_digital.cpp:6-10, 49-53 (which tests Call again) *)
Example PayoffConstructorTests :
  isOk (PayoffVanilla_ctor Call (D 100)) = true /\ throws (PayoffVanilla_ctor Call (D (-100))) = true /\
  throws (PayoffVanilla_ctor DoubleDigital (D 100)) = true /\
  isOk (PayoffVanilla_ctor Put (D 100)) = true /\ throws (PayoffVanilla_ctor Put (D (-100))) = true /\
  isOk (PayoffDigital_ctor Call (D 100)) = true /\ throws (PayoffDigital_ctor Call (D (-100))) = true /\
  throws (PayoffDigital_ctor DoubleDigital (D 100)) = true.
Proof. repeat split. Qed.

(** test_payoff_double_digital.cpp:20-24 *)
Example PayoffDoubleDigitalConstructorTests :
  isOk (PayoffDoubleDigital_ctor (D 90) (D 110)) = true /\
  throws (PayoffDoubleDigital_ctor (D (-90)) (D 110)) = true /\
  throws (PayoffDoubleDigital_ctor (D 90) (D (-110))) = true.
Proof. repeat split. Qed.

(** The clone and equality tests of the three files: equal to itself, to its clone and to a
    payoff with the same data, unequal to one whose (upper) strike is 10 greater. *)
Definition equality_tests (x x2 x3 : outcome (Payoff b64)) : bool :=
  with_ok x (fun p => with_ok x2 (fun p2 => with_ok x3 (fun p3 =>
    payoff_eqb (payoff_clone p) p && payoff_eqb p p2 && negb (payoff_neqb p p2) &&
    negb (payoff_eqb p p3) && payoff_neqb p p3))).
Definition strike_plus_10 : b64 := b64_add (D 100) (D 10).
(** test_payoff_vanilla.cpp:12-31, 52-71; test_payoff_digital.cpp:12-31, 55-74; test_payoff_double_digital.cpp:26-43 *)
Example PayoffCloneAndEqualityTests :
  (forall ty, ty = Call \/ ty = Put ->
    equality_tests (PayoffVanilla_ctor ty (D 100)) (PayoffVanilla_ctor ty (D 100)) (PayoffVanilla_ctor ty strike_plus_10) = true /\
    equality_tests (PayoffDigital_ctor ty (D 100)) (PayoffDigital_ctor ty (D 100)) (PayoffDigital_ctor ty strike_plus_10) = true) /\
  equality_tests (PayoffDoubleDigital_ctor (D 90) (D 110)) (PayoffDoubleDigital_ctor (D 90) (D 110))
    (PayoffDoubleDigital_ctor (D 90) (b64_add (D 110) (D 10))) = true.
Proof. split; [|vm_compute; reflexivity]. intros ty [-> | ->]; split; vm_compute; reflexivity. Qed.

(** A payoff and its clone at two prices. *)
Definition calculation (x : outcome (Payoff b64)) (at_90 at_110 : b64) : bool :=
  with_ok x (fun p => double_eq (payoff1 p (D 90)) at_90 && double_eq (payoff1 p (D 110)) at_110 &&
    double_eq (payoff1 (payoff_clone p) (D 90)) at_90 && double_eq (payoff1 (payoff_clone p) (D 110)) at_110).
(** test_payoff_vanilla.cpp:33-41, 73-81; test_payoff_digital.cpp:33-45, 76-88 *)
Example PayoffCalculationTests :
  calculation (PayoffVanilla_ctor Call (D 100)) (D 0) (D 10) = true /\
  calculation (PayoffVanilla_ctor Put (D 100)) (D 10) (D 0) = true /\
  calculation (PayoffDigital_ctor Call (D 100)) (D 0) (D 1) = true /\
  calculation (PayoffDigital_ctor Call (b64_add (D 100) (D 5))) (D 0) (D 1) = true /\
  calculation (PayoffDigital_ctor Put (D 100)) (D 1) (D 0) = true /\
  calculation (PayoffDigital_ctor Put (b64_add (D 100) (D 5))) (D 1) (D 0) = true.
Proof. repeat split; vm_compute; reflexivity. Qed.
(** test_payoff_double_digital.cpp:45-54 *)
Example PayoffDoubleDigitalPayoffCalculationTests :
  with_ok (PayoffDoubleDigital_ctor (D 90) (D 110)) (fun p => forallb (fun q =>
    double_eq (payoff1 q (D 85)) (D 0) && double_eq (payoff1 q (D 95)) (D 1) && double_eq (payoff1 q (D 115)) (D 0))
    [p; payoff_clone p]) = true.
Proof. vm_compute; reflexivity. Qed.

(** ** tests/unit/market_data/test_stock_data.cpp:8-25 *)
Example InvalidStockData :
  throws (StockData_ctor (D (-150)) (lit 2 1) (Some (lit 1 2))) = true /\
  throws (StockData_ctor (D 150) (lit (-2) 1) (Some (lit 1 2))) = true /\
  throws (StockData_ctor (D 150) (lit 2 1) (Some (lit (-1) 2))) = true /\
  throws (StockData_ctor (D 150) (lit 2 1) (Some (lit 15 1))) = true.
Proof. repeat split; vm_compute; reflexivity. Qed.
Example EqualityStockData :
  let stock S sigma c f := with_ok (StockData_ctor (D S) (lit sigma 1) c) f in
  let c := Some (lit 1 2) in
  stock 150%Z 2%Z c (fun stock1 => stock 150%Z 2%Z c (fun stock2 => stock 100%Z 2%Z c (fun stock3 =>
  stock 100%Z 3%Z c (fun stock4 => stock 150%Z 2%Z None (fun stock5 =>
    stock_eqb stock1 stock2 && stock_neqb stock1 stock3 && stock_neqb stock1 stock4 && stock_neqb stock1 stock5))))) = true.
Proof. vm_compute; reflexivity. Qed.

(** ** tests/unit/market_data/test_market_data.cpp *)
(** SetUpTestSuite and SetUp: the stock, and one observer held by the test. *)
Definition suite : Market b64 := run [OAddStock "AAPL" (D 150) (lit 2 1) (Some (lit 1 2))] MarketData_ctor.
Definition set_up (w : Market b64) : Market b64 := addObserver (List.length (mObj w)) (newObserver "AAPL" false w).
Definition observer (w : Market b64) : nat := List.length (mObj w).
(** TearDown *)
Definition tear_down (o : nat) (w : Market b64) : Market b64 := removeObserver (dropObserver o w).

(** SingletonInstance, lines 33-37: two calls in a row by one thread. *)
Example SingletonInstance : exists p,
  returned (sched (repeat 0%nat 12) sys0) = [(0%nat, Some p); (0%nat, Some p)].
Proof. exists 0%nat. reflexivity. Qed.
(** NotifyObserver, lines 39-42 *)
Example NotifyObserver : notifyObserver "AAPL" (set_up suite) = [observer suite].
Proof. reflexivity. Qed.
(** RemoveObserver, lines 44-49 *)
Example RemoveObserver : notifyObserver "AAPL" (tear_down (observer suite) (set_up suite)) = [] /\
  mWeak (tear_down (observer suite) (set_up suite)) = [].
Proof. split; reflexivity. Qed.
(** NotifyAllObservers, lines 51-58 *)
Example NotifyAllObservers : let w := set_up suite in
  notifyObservers (set_up w) = [observer suite; observer w] /\ observer suite <> observer w.
Proof. split; [reflexivity|discriminate]. Qed.
Definition shows (w : Market b64) (t : string) (S sigma c : b64) : bool :=
  with_ok (getStockData t w) (fun l => with_ok (deref l w) (fun d =>
    b64_eqb (getPrice d) S && b64_eqb (getSigma d) sigma && match getCoupon d with Some x => b64_eqb x c | None => false end)).
(** GetStockData, lines 60-67 *)
Example GetStockData : shows (set_up suite) "AAPL" (D 150) (lit 2 1) (lit 1 2) = true.
Proof. vm_compute; reflexivity. Qed.
(** UpdateStockData, lines 69-81: the handle is taken before the updates; three notifications. *)
Example UpdateStockData :
  let w := set_up suite in
  with_ok (getStockData "AAPL" w) (fun l =>
    let r1 := updateStockPrice "AAPL" (D 160) w in
    let r2 := updateStockSigma "AAPL" (lit 25 2) (post r1) in
    let r3 := updateStockCoupon "AAPL" (Some (lit 2 2)) (post r2) in
    with_ok (deref l (post r3)) (fun d =>
      isOk (res r1) && isOk (res r2) && isOk (res r3) &&
      (if list_eq_dec Nat.eq_dec (calls r1 ++ calls r2 ++ calls r3)%list (repeat (observer suite) 3) then true else false) &&
      b64_eqb (getPrice d) (D 160) && b64_eqb (getSigma d) (lit 25 2) &&
      match getCoupon d with Some x => b64_eqb x (lit 2 2) | None => false end)) = true.
Proof. vm_compute; reflexivity. Qed.
(** UpdateNonExistentStock, lines 83-89 *)
Example UpdateNonExistentStock : let w := set_up suite in
  throws (getStockData "MSFT" w) = true /\ throws (res (updateStockPrice "MSFT" (D 200) w)) = true /\
  throws (res (updateStockSigma "MSFT" (lit 3 1) w)) = true /\ throws (res (updateStockCoupon "MSFT" (Some (lit 4 2)) w)) = true.
Proof. repeat split. Qed.
(** RiskFreeRate, lines 91-98 *)
Example RiskFreeRate :
  let r1 := setR (lit 10 2) (set_up suite) in let r2 := setR (lit 5 2) (post r1) in
  (calls r1 ++ calls r2)%list = repeat (observer suite) 2 /\
  b64_eqb (getR (post r1)) (lit 10 2) = true /\ b64_eqb (getR (post r2)) (lit 5 2) = true.
Proof. repeat split; vm_compute; reflexivity. Qed.

(** ** tests/unit/option *)
(** test_base_option.cpp:43-98: the checks of the base class's constructor; PayoffTest. *)
Definition stocked : Market b64 := run [OAddStock "AAPL" (D 150) (lit 2 1) None] MarketData_ctor.
Example ConstructorTest : isOk (Option_ctor_checks "AAPL" (D 1) stocked) = true /\
  with_ok (PayoffVanilla_ctor Call (D 100)) (fun p => double_eq (payoff1 p (D 150)) (D 50)) = true.
Proof. split; vm_compute; reflexivity. Qed.
(** SharedPtrConstructorTest: initialize() registers the option once, its destruction clears the
    registration (addObserver and removeObserver are each called once). *)
Definition params (ticker : string) (K : option b64) : Params b64 :=
  let p := setParameter "T" (VDouble (D 1)) (setParameter "ticker" (VString ticker) []) in
  match K with Some k => setParameter "K" (VDouble k) p | None => p end.
Example SharedPtrConstructorTest :
  with_ok (res (createCallOption European (params "AAPL" (Some (D 100))) stocked)) (fun o =>
    let w := post (createCallOption European (params "AAPL" (Some (D 100))) stocked) in
    match mWeak w, mWeak (dropObserver (optObj o) w) with [i], [] => Nat.eqb i (optObj o) | _, _ => false end) = true.
Proof. reflexivity. Qed.
(** test_factory_european_option.cpp:18-75 *)
Example CreateValidOptions :
  with_ok (res (createCallOption European (params "AAPL" (Some (D 100))) stocked)) (fun o =>
    (option_getType (optKind o) =? "OptionPricer::EuropeanOption") &&
    match optPayoff o with PVanilla Call K => b64_eqb K (D 100) | _ => false end) = true /\
  with_ok (res (createPutOption European (params "AAPL" (Some (D 100))) stocked)) (fun o =>
    (option_getType (optKind o) =? "OptionPricer::EuropeanOption") &&
    match optPayoff o with PVanilla Put K => b64_eqb K (D 100) | _ => false end) = true.
Proof. split; vm_compute; reflexivity. Qed.
Example CreateOptionWithMissingParameter : throws (res (createCallOption European (params "AAPL" None) stocked)) = true.
Proof. reflexivity. Qed.
Example CreateOptionWithInvalidTicker :
  throws (res (createCallOption European (params "XXX" (Some (D 100))) stocked)) = true /\
  throws (res (createPutOption European (params "XXX" (Some (D 100))) stocked)) = true.
Proof. split; reflexivity. Qed.
Example CreateOptionWithInvalidStrike :
  throws (res (createCallOption European (params "AAPL" (Some (D (-100)))) stocked)) = true /\
  throws (res (createPutOption European (params "AAPL" (Some (D (-100)))) stocked)) = true.
Proof. split; reflexivity. Qed.

(** ** tests/integration/test_integration_option.cpp:38-63, commented out in the repository, with
    payoff() read as the payoff at the current price of the option's stock. *)
Definition payoff_now (o : M_Option.Option b64) (w : Market b64) : outcome b64 :=
  bind (getStockData (optTicker o) w) (fun l => bind (deref l w) (fun d => option_payoff1 o (getPrice d))).
Example UpdateStockPriceTest :
  let r := createCallOption European (params "AAPL" (Some (D 100))) stocked in
  with_ok (res r) (fun o =>
    let w1 := post (updateStockPrice "AAPL" (D 170) (post r)) in
    let w2 := post (updateStockPrice "AAPL" (D 50) w1) in
    double_eq (payoff_now o (post r)) (D 50) && double_eq (payoff_now o w1) (D 70) && double_eq (payoff_now o w2) (D 0)) = true.
Proof. vm_compute; reflexivity. Qed.
Example ObserverInteractionTest :
  let r := createCallOption European (params "AAPL" (Some (D 100))) stocked in
  let r2 := createCallOption European (params "AAPL" (Some (D 120))) (post r) in
  with_ok (res r) (fun o => with_ok (res r2) (fun o2 =>
    let w1 := post (updateStockPrice "AAPL" (D 160) (post r2)) in
    let w2 := post (updateStockPrice "AAPL" (D 90) w1) in
    double_eq (payoff_now o w1) (D 60) && double_eq (payoff_now o2 w1) (D 40) &&
    double_eq (payoff_now o w2) (D 0) && double_eq (payoff_now o2 w2) (D 0))) = true.
Proof. vm_compute; reflexivity. Qed.
