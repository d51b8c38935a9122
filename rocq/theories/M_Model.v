(** src/model/*.cpp, src/model/discretization/*.cpp: the stock price models.

    A model refers to the market data (passed as [w]), to the StockData object it
    looked up when it was built (a heap location of [w]) and to a generator (the state
    of [SM]).  [prices] is a vector of [steps] elements written in order; it is kept as
    the list of the elements written so far. *)
From Coq Require Import List ZArith Bool String.
From Verif Require Import M_Num M_Outcome M_Dict M_Stock M_Market M_Random.
Import ListNotations.

(** The CIR discretisations: explicit_euler_cir_discretization.h, milstein_cir_discretization.h *)
Inductive CIRDisc := CIREuler | CIRMilstein.

Section Model.
Context {T : Type} {num : Num T}.
Local Open Scope num_scope.
Local Open Scope sm_scope.

(** The classes with their fields (names of /repo). *)
Inductive ModelKind :=
| MGBM
| MHeston (kappa theta sigma_v rho v0 : T) (disc : CIRDisc)
| MBates (kappa theta sigma_v rho v0 lambda muJ sigmaJ : T) (disc : CIRDisc)
| MKou (lambda p eta1 eta2 muJ : T)
| MMerton (lambda muJ sigmaJ : T)
| MVarianceGamma (nu theta omega : T).

(** base_model.h: ticker_, stockData_ (the location), and the class-specific part *)
Record StockModel := mkModel { mdTicker : string; mdStock : nat; mdKind : ModelKind }.

(** base_model.cpp:5-9 followed by the body of the class's constructor *)
Definition StockModel_ctor (ticker : string) (w : Market T)
    (kind : StockData T -> outcome ModelKind) : outcome StockModel :=
  bind (getStockData ticker w) (fun l =>
  bind (deref l w) (fun d =>
  bind (kind d) (fun k => Ok (mkModel ticker l k)))).

(** gbm_model.h:12 *)
Definition GBM_ctor ticker w : outcome StockModel :=
  StockModel_ctor ticker w (fun _ => Ok MGBM).

(** heston_model.cpp:7-33.  The parameter varDiscretization is moved into the member on
    line 15; line 30 tests the parameter, which is then null, so line 31 always
    replaces the member. *)
Definition Heston_ctor ticker w (kappa theta sigma_v rho v0 : T) (varDiscretization : option CIRDisc)
    : outcome StockModel :=
  StockModel_ctor ticker w (fun _ =>
    let member := varDiscretization in
    let parameter_after_move : option CIRDisc := None in
    if (rho <? - n1) || (rho >? n1) then Throw LogicError
    else if (v0 <? n0) || (sigma_v <? n0) then Throw LogicError
    else
      let member := match parameter_after_move with None => Some CIREuler | Some _ => member end in
      match member with
      | Some disc => Ok (MHeston kappa theta sigma_v rho v0 disc)
      | None => UB      (* a null pointer that simulatePrices would dereference *)
      end).

(** bates_model.cpp:9-27 *)
Definition Bates_ctor ticker w (kappa theta sigma_v rho v0 lambda muJ sigmaJ : T)
    (varDiscretization : option CIRDisc) : outcome StockModel :=
  StockModel_ctor ticker w (fun _ =>
    let member := varDiscretization in
    if (v0 <=? n0) || (kappa <=? n0) || (sigma_v <=? n0) || (sigmaJ <=? n0)
    then Throw InvalidArgument
    else if (rho <? - n1) || (rho >? n1) then Throw InvalidArgument
    else
      let member := match member with None => Some CIREuler | Some _ => member end in
      match member with
      | Some disc => Ok (MBates kappa theta sigma_v rho v0 lambda muJ sigmaJ disc)
      | None => UB
      end).

(** kou_model.cpp:9-23 *)
Definition Kou_ctor ticker w (lambda p eta1 eta2 : T) : outcome StockModel :=
  StockModel_ctor ticker w (fun _ =>
    if (p <? n0) || (p >? n1) then Throw InvalidArgument
    else if eta1 <? n1 then Throw InvalidArgument
    else if eta2 <? n0 then Throw InvalidArgument
    else Ok (MKou lambda p eta1 eta2
               (p * (eta1 / (eta1 - n1)) + (n1 - p) * (eta2 / (eta2 + n1))))).

(** merton_jump_diffusion_model.cpp:10-18 *)
Definition Merton_ctor ticker w (lambda muJ sigmaJ : T) : outcome StockModel :=
  StockModel_ctor ticker w (fun _ =>
    if sigmaJ <=? n0 then Throw InvalidArgument else Ok (MMerton lambda muJ sigmaJ)).

(** variance_gamma_model.cpp:10-23 *)
Definition VarianceGamma_ctor ticker w (nu theta : T) : outcome StockModel :=
  StockModel_ctor ticker w (fun d =>
    if nu <=? n0 then Throw InvalidArgument
    else
      let sigma := getSigma d in
      Ok (MVarianceGamma nu theta
            ((n1 / nu) * nlog (n1 - theta * nu - nhalf * sigma * sigma * nu)))).

(** explicit_euler_cir_discretization.cpp:5-11: the new V *)
Definition cir_euler (V dt kappa theta sigma_v z : T) : T :=
  let vMax := nmax V n0 in
  V + (kappa * (theta - vMax) * dt + sigma_v * nsqrt (vMax * dt) * z).

(** milstein_cir_discretization.cpp:4-12 *)
Definition cir_milstein (V dt kappa theta sigma_v z : T) : T :=
  let V := cir_euler V dt kappa theta sigma_v z in
  V + lit 25 2 * sigma_v * sigma_v * dt * (z * z - n1).

Definition cir_update (disc : CIRDisc) : T -> T -> T -> T -> T -> T -> T :=
  match disc with CIREuler => cir_euler | CIRMilstein => cir_milstein end.

Context (env : Env T).

(** c = getCoupon().value_or(0.0) *)
Definition coupon (d : StockData T) : T :=
  match getCoupon d with Some c => c | None => n0 end.

(** gbm_model.cpp:13-33 *)
Definition gbm_prices (d : StockData T) (r t : T) : SM T (list T) := fun g0 =>
  (let S := getPrice d in
   let sigma := getSigma d in
   let c := coupon d in
   let steps := getDim g0 in
   let dt := t / nofZ steps in
   snd <- new_dist DStdNormal ;;
   st <- sfor_int steps (fun _ '(S, prices) =>
     z <- draw env snd ;;
     let drift := (r - c - (nhalf * sigma * sigma)) * dt in
     let diffusion := sigma * nsqrt dt * z in
     let S := S * nexp (drift + diffusion) in
     sret (S, prices ++ [S])) (S, []) ;;
   sret (Datatypes.snd st)) g0.

(** heston_model.cpp:41-72 *)
Definition heston_prices (kappa theta sigma_v rho v0 : T) (disc : CIRDisc)
    (d : StockData T) (r t : T) : SM T (list T) := fun g0 =>
  (let S := getPrice d in
   let V := v0 in
   let c := coupon d in
   let steps := getDim g0 in
   let dt := t / nofZ steps in
   snd <- new_dist DStdNormal ;;
   st <- sfor_int steps (fun _ '(S, V, prices) =>
     z1 <- draw env snd ;;
     z2 <- draw env snd ;;
     let zV := z1 in
     let zS := rho * z1 + nsqrt (n1 - rho * rho) * z2 in
     let VMax := nmax V n0 in
     let drift := (r - c - nhalf * VMax) * dt in
     let diffusion := nsqrt (VMax * dt) * zS in
     let S := S * nexp (drift + diffusion) in
     let V := cir_update disc V dt kappa theta sigma_v zV in
     sret (S, V, prices ++ [S])) (S, V, []) ;;
   sret (Datatypes.snd st)) g0.

(** bates_model.cpp:35-76 *)
Definition bates_prices (kappa theta sigma_v rho v0 lambda muJ sigmaJ : T) (disc : CIRDisc)
    (d : StockData T) (r t : T) : SM T (list T) := fun g0 =>
  (let S := getPrice d in
   let V := v0 in
   let c := coupon d in
   let steps := getDim g0 in
   let dt := t / nofZ steps in
   snd <- new_dist DStdNormal ;;
   poissonDist <- new_dist (DPoisson (lambda * dt)) ;;
   jumpDist <- new_dist (DNormal muJ sigmaJ) ;;
   st <- sfor_int steps (fun _ '(S, V, prices) =>
     z1 <- draw env snd ;;
     z2 <- draw env snd ;;
     let zV := z1 in
     let zS := rho * z1 + nsqrt (n1 - rho * rho) * z2 in
     let VMax := nmax V n0 in
     let drift := (r - c - nhalf * VMax) * dt in
     let diffusion := nsqrt (VMax * dt) * zS in
     let S := S * nexp (drift + diffusion) in
     jump_count <- draw_poisson env (lambda * dt) ;;
     S <- siter (Z.to_nat jump_count) 0 (fun _ S =>
       jumpSize <- draw env jumpDist ;;
       sret (S * nexp jumpSize)) S ;;
     let V' := cir_update disc V dt kappa theta sigma_v zV in
     sret (S, V', prices ++ [S])) (S, V, []) ;;
   sret (Datatypes.snd st)) g0.

(** kou_model.cpp:57-65: one turn of the jump loop, adding to jumpSize *)
Definition kou_jump (p : T) (uniformDist expUp expDown : Distr T) (jumpSize : T) : SM T T :=
  U <- draw env uniformDist ;;
  jumpSize <- (if U <? p
               then (upsideJump <- draw env expUp ;; sret (jumpSize + upsideJump))
               else sret jumpSize) ;;
  e <- draw env expDown ;;
  let downsideJump := - e in
  sret (jumpSize + downsideJump).

(** kou_model.cpp:31-73.  ContinuousUniformDistribution uniformDist has the default
    arguments 0.0 and 1.0 (continuous_uniform_distrib.h:10). *)
Definition kou_prices (lambda p eta1 eta2 muJ : T) (d : StockData T) (r t : T) : SM T (list T) := fun g0 =>
  (let S := getPrice d in
   let sigma := getSigma d in
   let c := coupon d in
   let steps := getDim g0 in
   let dt := t / nofZ steps in
   snDist <- new_dist DStdNormal ;;
   poissonDist <- new_dist (DPoisson (lambda * dt)) ;;
   uniformDist <- new_dist (DUniform n0 n1) ;;
   expUp <- new_dist (DExponential eta1) ;;
   expDown <- new_dist (DExponential eta2) ;;
   st <- sfor_int steps (fun _ '(S, prices) =>
     let drift := (r - c - nhalf * sigma * sigma - lambda * (muJ - n1)) * dt in
     z <- draw env snDist ;;
     let diffusion := sigma * nsqrt dt * z in
     jumpCount <- draw_poisson env (lambda * dt) ;;
     jumpSize <- siter (Z.to_nat jumpCount) 0 (fun _ jumpSize =>
       kou_jump p uniformDist expUp expDown jumpSize) n0 ;;
     let S := S * nexp (drift + diffusion + jumpSize) in
     sret (S, prices ++ [S])) (S, []) ;;
   sret (Datatypes.snd st)) g0.

(** merton_jump_diffusion_model.cpp:26-60 *)
Definition merton_prices (lambda muJ sigmaJ : T) (d : StockData T) (r t : T) : SM T (list T) := fun g0 =>
  (let S := getPrice d in
   let sigma := getSigma d in
   let c := coupon d in
   let steps := getDim g0 in
   let dt := t / nofZ steps in
   snDist <- new_dist DStdNormal ;;
   poissonDist <- new_dist (DPoisson (lambda * dt)) ;;
   jumpDist <- new_dist (DNormal muJ sigmaJ) ;;
   st <- sfor_int steps (fun _ '(S, prices) =>
     let drift := (r - c - nhalf * sigma * sigma) * dt in
     z <- draw env snDist ;;
     let diffusion := sigma * nsqrt dt * z in
     jump_count <- draw_poisson env (lambda * dt) ;;
     jumpSize <- siter (Z.to_nat jump_count) 0 (fun _ jumpSize =>
       j <- draw env jumpDist ;;
       sret (jumpSize + j)) n0 ;;
     let S := S * nexp (drift + diffusion + jumpSize) in
     sret (S, prices ++ [S])) (S, []) ;;
   sret (Datatypes.snd st)) g0.

(** variance_gamma_model.cpp:31-55 *)
Definition vg_prices (nu theta omega : T) (d : StockData T) (r t : T) : SM T (list T) := fun g0 =>
  (let S := getPrice d in
   let sigma := getSigma d in
   let c := coupon d in
   let steps := getDim g0 in
   let dt := t / nofZ steps in
   snDist <- new_dist DStdNormal ;;
   gammaDist <- new_dist (DGamma (dt / nu) nu) ;;
   st <- sfor_int steps (fun _ '(S, prices) =>
     g <- draw env gammaDist ;;
     z <- draw env snDist ;;
     let drift := (r - c + omega) * dt in
     let VG := theta * g + sigma * nsqrt g * z in
     let S := S * nexp (drift + VG) in
     sret (S, prices ++ [S])) (S, []) ;;
   sret (Datatypes.snd st)) g0.

Definition kind_prices (k : ModelKind) : StockData T -> T -> T -> SM T (list T) :=
  match k with
  | MGBM => gbm_prices
  | MHeston kappa theta sigma_v rho v0 disc => heston_prices kappa theta sigma_v rho v0 disc
  | MBates kappa theta sigma_v rho v0 lambda muJ sigmaJ disc =>
      bates_prices kappa theta sigma_v rho v0 lambda muJ sigmaJ disc
  | MKou lambda p eta1 eta2 muJ => kou_prices lambda p eta1 eta2 muJ
  | MMerton lambda muJ sigmaJ => merton_prices lambda muJ sigmaJ
  | MVarianceGamma nu theta omega => vg_prices nu theta omega
  end.

(** simulatePrices of any model: stockData_ and marketData_->getR() are read first *)
Definition simulatePrices (m : StockModel) (w : Market T) (t : T) : SM T (list T) :=
  d <- slift (deref (mdStock m) w) ;;
  kind_prices (mdKind m) d (mR w) t.

(** simulatePriceAtMaturity (gbm_model.cpp:9-11 and alike) *)
Definition simulatePriceAtMaturity (m : StockModel) (w : Market T) (t : T) : SM T T :=
  prices <- simulatePrices m w t ;;
  slift (vback prices).

(** gbm_model.cpp:35-49 *)
Definition gbm_backward (d : StockData T) (S_next t_j t_jp1 : T) : SM T T :=
  let sigma := getSigma d in
  let S := getPrice d in
  let X_next := nlog (S_next / S) in
  snd <- new_dist DStdNormal ;;
  z <- draw env snd ;;
  let X_curr := (t_j / t_jp1) * X_next + nsqrt (t_j * (t_jp1 - t_j) / t_jp1) * sigma * z in
  sret (S * nexp X_curr).

(** base_model.cpp:21-25 for the models that do not override it *)
Definition simulatePriceBackward (m : StockModel) (w : Market T) (S_next t_j t_jp1 : T) : SM T T :=
  match mdKind m with
  | MGBM => d <- slift (deref (mdStock m) w) ;; gbm_backward d S_next t_j t_jp1
  | _ => slift (Throw LogicError)
  end.

(** base_model.cpp:13-15 *)
Definition getSteps (g : Gen T) : Z := getDim g.

End Model.
Arguments StockModel T : clear implicits.
Arguments ModelKind T : clear implicits.
