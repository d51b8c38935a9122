(** Properties C51-C54: the Monte Carlo builders and the solver. *)
From Coq Require Import String List ZArith Bool Lia Reals Lra.
From Verif Require Import M_Num M_Outcome M_Dict M_Stock M_Market M_Payoff M_Option M_Random M_Model
  M_Regression M_MonteCarlo M_Builder S_MonteCarlo.
Import ListNotations.

(** ** Specification: what the calls made so far say, read off the sequence of calls. *)
Section Spec.
Context {T : Type}.

(** The last value [f] picks from the calls. *)
Fixpoint latest {C A} (f : C -> option A) (cs : list C) : option A :=
  match cs with
  | [] => None
  | c :: cs' => match latest f cs' with Some a => Some a | None => f c end
  end.

(** The class of pricer made for each kind of option. *)
Definition class_for (k : OptionKind) : PricerClass :=
  match k with
  | European | Digital | DoubleDigitalK => CSinglePath
  | American => CAmerican
  | ArithmeticAsian => CAsian Arithmetic
  | GeometricAsian => CAsian Geometric
  | KnockIn => CBarrier KIn
  | KnockOut => CBarrier KOut
  | FixedLookback => CLookback Fixed
  | FloatingLookback => CLookback Floating
  end.
Definition class_dec : forall c c' : PricerClass, {c = c'} + {c <> c'}.
Proof. repeat decide equality. Defined.

(** The option of the last setOption call if its class fits, otherwise none. *)
Definition chosen_option (c : PricerClass) (cs : list (bcall T)) : option (Option T) :=
  match latest (fun x => match x with BSetOption o => Some o | _ => None end) cs with
  | Some (Some o) => if class_dec c (class_for (optKind o)) then Some o else None
  | _ => None
  end.
Definition chosen_model (cs : list (bcall T)) : option (ModelObj T) :=
  match latest (fun x => match x with BSetModel m => Some m | _ => None end) cs with Some m => m | None => None end.
Definition chosen_market (cs : list (bcall T)) : option nat :=
  match latest (fun x => match x with BSetMarket w => Some w | _ => None end) cs with Some w => w | None => Some 0%nat end.
(** Only the American builder has strategies: three monomials and least squares
    unless others are set. *)
Definition chosen_basis (c : PricerClass) (cs : list (bcall T)) : option (Basis T) :=
  match c with
  | CAmerican => match latest (fun x => match x with BSetBasis b => Some b | _ => None end) cs with
                 | Some b => b | None => Some (Monomial 3) end
  | _ => None
  end.
Definition chosen_regression (c : PricerClass) (cs : list (bcall T)) : option (Regression T) :=
  match c with
  | CAmerican => match latest (fun x => match x with BSetRegression b => Some b | _ => None end) cs with
                 | Some b => b | None => Some LeastSquares end
  | _ => None
  end.
(** Was build called since the last setStockPriceModel (or at all)? *)
Definition built_since_model (cs : list (bcall T)) : bool :=
  match latest (fun x => match x with BSetModel _ => Some false | BBuild _ => Some true | _ => None end) cs with
  | Some b => b | None => false end.
End Spec.

(** ** The builder after a sequence of calls *)
Section Protocol.
Context {T : Type} {num : Num T}.

Lemma accepts_class : forall c k, accepts c k = if class_dec c (class_for k) then true else false.
Proof. intros c k. destruct (class_dec c (class_for k)) as [-> |N]; [now destruct k|]. destruct c as [|[]|[]|[]|], k; try reflexivity; now destruct N. Qed.
Lemma latest_snoc : forall {C A} (f : C -> option A) cs c,
  latest f (cs ++ [c]) = match f c with Some a => Some a | None => latest f cs end.
Proof.
  intros C A f cs c. induction cs as [|x cs IH]; cbn [latest app]; [now destruct (f c)|].
  rewrite IH. now destruct (f c).
Qed.
Lemma brun_snoc : forall cs c (s : Builder T * World T), brun (cs ++ [c]) s = bstep c (brun cs s).
Proof. intros. unfold brun. now rewrite fold_left_app. Qed.

Lemma build_keeps : forall rd (b : Builder T) W r b' W', build rd b W = (r, b', W') ->
  bClass b' = bClass b /\ bMarket b' = bMarket b /\ bOption b' = bOption b /\ bBasis b' = bBasis b /\
  bRegression b' = bRegression b /\ wMarkets W' = wMarkets W /\
  (bModel b' = bModel b \/ bModel b = None).
Proof.
  intros rd b W r b' W' E. unfold build in E.
  destruct (bOption b) eqn:O; [|injection E as <- <- <-; now repeat split; auto].
  destruct (bModel b) eqn:M; [injection E as <- <- <-; now repeat split; auto|].
  destruct (bMarket b) eqn:K; [|injection E as <- <- <-; now repeat split; auto].
  destruct (bind _ _); injection E as <- <- <-; now repeat split; auto.
Qed.

Lemma run_state : forall c (cs : list (bcall T)) W0, let s := brun cs (Builder_new c, W0) in
  bClass (fst s) = c /\ bMarket (fst s) = chosen_market cs /\ bOption (fst s) = chosen_option c cs /\
  bBasis (fst s) = chosen_basis c cs /\ bRegression (fst s) = chosen_regression c cs /\
  wMarkets (snd s) = wMarkets W0 /\
  (chosen_model cs <> None \/ built_since_model cs = false -> bModel (fst s) = chosen_model cs).
Proof.
  intros c cs W0. cbv zeta. induction cs as [|x cs IH] using rev_ind.
  - cbn. repeat split; auto; destruct c; reflexivity.
  - rewrite brun_snoc. destruct (brun cs (Builder_new c, W0)) as [b W]. cbn [fst snd] in IH.
    destruct IH as (I1 & I2 & I3 & I4 & I5 & I6 & I7).
    unfold chosen_market, chosen_option, chosen_basis, chosen_regression, chosen_model, built_since_model in *.
    rewrite !latest_snoc. destruct x as [o|m|w|bs|rg|rd]; cbn [bstep].
    + unfold setOption. cbn [fst snd].
      destruct o as [o|].
      * rewrite I1, accepts_class. destruct (class_dec c (class_for (optKind o))); cbn [fst snd bClass bMarket bOption bBasis bRegression bModel]; now repeat split.
      * cbn [fst snd bClass bMarket bOption bBasis bRegression bModel]. now repeat split.
    + cbn. now repeat split.
    + cbn. now repeat split.
    + unfold setBasisFunctionStrategy. rewrite I1. destruct c; cbn [fst snd bClass bMarket bOption bBasis bRegression bModel]; now repeat split.
    + unfold setRegressionStrategy. rewrite I1. destruct c; cbn [fst snd bClass bMarket bOption bBasis bRegression bModel]; now repeat split.
    + destruct (build rd b W) as [[r b'] W'] eqn:E. apply build_keeps in E. cbn [fst snd].
      destruct E as (E1 & E2 & E3 & E4 & E5 & E6 & E7). rewrite E1, E2, E3, E4, E5, E6. repeat split; auto.
      intros [H|H]; [|discriminate]. destruct E7 as [-> | E7]; [auto|]. rewrite (I7 (or_introl H)) in E7. congruence.
Qed.

(** ** C51 *)
Theorem C51_builder_protocol : forall c (cs : list (bcall T)) W0 b W rd,
  brun cs (Builder_new c, W0) = (b, W) ->
  match chosen_option c cs with
  | None => fst (fst (build rd b W)) = Throw LogicError
  | Some o =>
      fst (fst (build rd b W)) <> Throw LogicError /\
      (* whatever is built holds the choices *)
      (forall P, fst (fst (build rd b W)) = Ok P ->
         pcClass P = c /\ pcOption P = o /\ pcMarket P = chosen_market cs /\
         pcBasis P = chosen_basis c cs /\ pcRegression P = chosen_regression c cs) /\
      (* an explicitly set model is used *)
      (forall m, chosen_model cs = Some m -> exists P, fst (fst (build rd b W)) = Ok P /\ pcModel P = m) /\
      (* otherwise a GBM model of the option's stock in the chosen market, on a new
         generator with 52 steps; build fails only if that market lacks the stock *)
      (chosen_model cs = None -> built_since_model cs = false ->
       forall l w, chosen_market cs = Some l -> nth_error (wMarkets W0) l = Some w ->
       match dget (optTicker o) (mMap w) with
       | None => fst (fst (build rd b W)) = Throw InvalidArgument
       | Some loc =>
           (exists d, nth_error (mHeap w) loc = Some d) ->
           exists P b' W', build rd b W = (Ok P, b', W') /\
             pcModel P = mkModelObj (mkModel (optTicker o) loc MGBM) l (length (wGens W)) /\
             wMarkets W' = wMarkets W0 /\
             wGens W' = wGens W ++ [Pseudo_ctor 52 rd]
       end)
  end.
Proof.
  intros c cs W0 b W rd E. pose proof (run_state c cs W0) as S. rewrite E in S. cbv zeta in S. cbn [fst snd] in S.
  destruct S as (S1 & S2 & S3 & S4 & S5 & S6 & S7). unfold build. rewrite S3.
  destruct (chosen_option c cs) as [o|]; [|reflexivity].
  assert (NL : forall w : Market T, GBM_ctor (optTicker o) w <> Throw LogicError).
  { intros w. unfold GBM_ctor, StockModel_ctor, getStockData, bind, deref.
    destruct (dget _ _) as [l|]; [|easy]. destruct (nth_error _ _); easy. }
  split; [|split; [|split]].
  - destruct (bModel b); [easy|]. destruct (bMarket b) as [l|]; [|easy]. cbn [market_at].
    destruct (nth_error (wMarkets W) l) as [w|]; cbn [bind]; [|easy].
    specialize (NL w). destruct (GBM_ctor (optTicker o) w); cbn; congruence.
  - intros P. destruct (bModel b).
    + cbn. intros [= <-]. cbn. now rewrite S1, S2, S4, S5.
    + destruct (bMarket b); [|easy]. destruct (bind _ _); try easy. cbn. intros [= <-]. cbn. now rewrite S1, S2, S4, S5.
  - intros m Hm. rewrite S7, Hm by (left; congruence). eexists. split; [reflexivity|reflexivity].
  - intros Hm Hb l w Hl Hw. rewrite S7, Hm by (now right). rewrite S2, Hl. cbn [market_at]. rewrite S6, Hw. cbn [bind].
    unfold GBM_ctor, StockModel_ctor, getStockData, deref. destruct (dget (optTicker o) (mMap w)) as [loc|]; [|reflexivity].
    intros [d Hd]. cbn [bind]. rewrite Hd. cbn [bind]. do 3 eexists. split; [reflexivity|]. now repeat split.
Qed.
End Protocol.
Print Assumptions C51_builder_protocol.

Definition eu (t : string) : Option R := mkOption European t 1%R (PVanilla Call 100%R) None 0.
Definition w2 : Market R :=
  mkMarket (5/100)%R [("AAPL", 0%nat); ("MSFT", 1%nat)]%string [] [mkStock 100 (2/10) None; mkStock 300 (1/10) None]%R [].
Definition heston_m : ModelObj R :=
  mkModelObj (mkModel "AAPL" 0 (MHeston 2 (4/100) (3/10) (-7/10) (4/100) CIREuler)%R) 0 0.

(** A run that sets, rejects, replaces and builds. *)
Example C51_ex :
  let cs := [BSetModel (Some heston_m); BSetOption (Some (eu "AAPL")); BBuild 1; BSetOption None;
             BSetModel None; BSetOption (Some (eu "MSFT"))] in
  chosen_option CSinglePath cs = Some (eu "MSFT") /\ chosen_model cs = None /\ built_since_model cs = false /\
  chosen_market cs = Some 0%nat /\
  exists P b' W', build 9 (fst (brun cs (Builder_new CSinglePath, mkWorld [w2] [])))
                          (snd (brun cs (Builder_new CSinglePath, mkWorld [w2] []))) = (Ok P, b', W') /\
    pcModel P = mkModelObj (mkModel "MSFT" 1 MGBM) 0 0.
Proof. cbv zeta. repeat split. do 3 eexists. split; reflexivity. Qed.

(** ** C52 *)

(** Does the pricer simulate the stock that its own option names, in its own market? *)
Definition own_stock {T} (P : Pricer T) (W : World T) : Prop :=
  pcMarket P = Some (moMarket (pcModel P)) /\
  exists w, nth_error (wMarkets W) (moMarket (pcModel P)) = Some w /\
    dget (optTicker (pcOption P)) (mMap w) = Some (mdStock (moModel (pcModel P))).

(** Reusing a builder for an option on another stock prices the new option on the old
    stock; after another market is set the model still reads the old market. *)
Theorem C52_refuted :
  (exists (cs : list (bcall R)) W0 b W P b' W',
     brun cs (Builder_new CSinglePath, W0) = (b, W) /\ chosen_model cs = None /\ (forall m, ~ In (BSetModel m) cs) /\
     build 9 b W = (Ok P, b', W') /\ optTicker (pcOption P) = "MSFT"%string /\
     (exists w, nth_error (wMarkets W') 0 = Some w /\ deref (mdStock (moModel (pcModel P))) w = Ok (mkStock 100 (2/10) None)%R /\
        bind (getStockData "MSFT" w) (fun l => deref l w) = Ok (mkStock 300 (1/10) None)%R) /\
     ~ own_stock P W') /\
  (exists (cs : list (bcall R)) W0 b W P b' W',
     brun cs (Builder_new CSinglePath, W0) = (b, W) /\ (forall m, ~ In (BSetModel m) cs) /\
     build 9 b W = (Ok P, b', W') /\ pcMarket P = Some 1%nat /\ moMarket (pcModel P) = 0%nat).
Proof.
  split.
  - exists [BSetOption (Some (eu "AAPL")); BBuild 1; BSetOption (Some (eu "MSFT"))], (mkWorld [w2] []).
    do 5 eexists. split; [reflexivity|]. split; [reflexivity|]. split; [intros m H; cbn in H; intuition discriminate|].
    split; [reflexivity|]. split; [reflexivity|]. split.
    + eexists. repeat split.
    + intros (_ & w & H1 & H2). cbn in H1. injection H1 as <-. discriminate.
  - exists [BSetOption (Some (eu "AAPL")); BBuild 1; BSetMarket (Some 1%nat)], (mkWorld [w2; w2] []).
    do 5 eexists. split; [reflexivity|]. split; [intros m H; cbn in H; intuition discriminate|].
    split; [reflexivity|]. split; reflexivity.
Qed.
Print Assumptions C52_refuted.

(** What does hold: a builder without explicit model whose options all name one stock and
    whose market data is not changed builds pricers on the option's own stock.  Missing:
    options on other stocks and changes of the market data after a build. *)
Section Reuse.
Context {T : Type} {num : Num T}.
Definition keeps_to (t : string) (x : bcall T) : Prop :=
  match x with
  | BSetOption (Some o) => optTicker o = t
  | BSetModel m => m = None
  | BSetMarket _ => False
  | _ => True
  end.

Theorem C52_same_stock_partial : forall t c (cs : list (bcall T)) W0 b W rd P b' W',
  Forall (keeps_to t) cs -> brun cs (Builder_new c, W0) = (b, W) -> build rd b W = (Ok P, b', W') -> own_stock P W'.
Proof.
  intros t c cs W0 b W rd P b' W' F E B.
  assert (INV : bMarket b = Some 0%nat /\ (forall o, bOption b = Some o -> optTicker o = t) /\
    (forall m, bModel b = Some m -> moMarket m = 0%nat /\ exists w, nth_error (wMarkets W) 0 = Some w /\
       dget t (mMap w) = Some (mdStock (moModel m)))).
  { clear B. revert b W E. induction cs as [|x cs IH] using rev_ind; intros b W E.
    - injection E as <- <-. repeat split; easy.
    - apply Forall_app in F. destruct F as [F1 F2]. inversion F2 as [|? ? K _]. subst. specialize (IH F1).
      rewrite brun_snoc in E. destruct (brun cs (Builder_new c, W0)) as [b1 W1]. destruct (IH b1 W1 eq_refl) as (I1 & I2 & I3).
      destruct x as [o|m|w|bs|rg|r2]; cbn [bstep keeps_to] in *.
      + unfold setOption in E. destruct o as [o|].
        * destruct (accepts (bClass b1) (optKind o)); injection E as <- <-; cbn; repeat split; try easy; try apply I3; auto.
          now intros o' [= <-].
        * injection E as <- <-; cbn; repeat split; try easy; now apply I3.
      + subst m. injection E as <- <-. cbn. repeat split; easy.
      + easy.
      + unfold setBasisFunctionStrategy in E. destruct (bClass b1); injection E as <- <-; exact (conj I1 (conj I2 I3)).
      + unfold setRegressionStrategy in E. destruct (bClass b1); injection E as <- <-; exact (conj I1 (conj I2 I3)).
      + unfold build in E. destruct (bOption b1) as [o|] eqn:O; [|injection E as <- <-; rewrite O; exact (conj I1 (conj I2 I3))].
        destruct (bModel b1) as [m|] eqn:M; [injection E as <- <-; rewrite O, M; exact (conj I1 (conj I2 I3))|].
        assert (SAME : bMarket b1 = Some 0%nat /\ (forall o, bOption b1 = Some o -> optTicker o = t) /\
          (forall m, bModel b1 = Some m -> moMarket m = 0%nat /\ exists w, nth_error (wMarkets W1) 0 = Some w /\
            dget t (mMap w) = Some (mdStock (moModel m)))) by (rewrite O, M; exact (conj I1 (conj I2 I3))).
        rewrite I1 in E. cbn [market_at] in E.
        destruct (nth_error (wMarkets W1) 0) as [w|] eqn:NW; cbn [bind] in E;
          [|injection E as <- <-; now rewrite NW].
        unfold GBM_ctor, StockModel_ctor, getStockData in E. rewrite (I2 o eq_refl) in E.
        destruct (dget t (mMap w)) as [l|] eqn:D; cbn [bind] in E; [|injection E as <- <-; now rewrite NW].
        destruct (deref l w); cbn [bind] in E; injection E as <- <-; try (now rewrite NW).
        cbn. split; [easy|]. split; [easy|]. intros m [= <-]. cbn. eauto. }
  destruct INV as (I1 & I2 & I3). unfold build in B. destruct (bOption b) as [o|] eqn:O; [|discriminate].
  destruct (bModel b) as [m|] eqn:M.
  - injection B as <- <- <-. destruct (I3 m eq_refl) as (J1 & w & J2 & J3). split; cbn; [congruence|].
    exists w. rewrite J1, (I2 o eq_refl). now split.
  - rewrite I1 in B. cbn [market_at] in B. destruct (nth_error (wMarkets W) 0) as [w|] eqn:NW; cbn [bind] in B; [|discriminate].
    unfold GBM_ctor, StockModel_ctor, getStockData in B. rewrite (I2 o eq_refl) in B.
    destruct (dget t (mMap w)) as [l|] eqn:D; cbn [bind] in B; [|discriminate].
    destruct (deref l w); cbn [bind] in B; try discriminate. injection B as <- <- <-. split; cbn; [easy|].
    exists w. rewrite (I2 o eq_refl). now split.
Qed.
End Reuse.
Print Assumptions C52_same_stock_partial.

(** The hypotheses are met by a builder used for a call and then for a put on the same stock. *)
Example C52_ex : let cs := [BSetOption (Some (eu "MSFT")); BBuild 1; BSetOption (Some (eu "MSFT"))] in
  Forall (keeps_to "MSFT") cs /\
  exists b W P b' W', brun cs (Builder_new CSinglePath, mkWorld [w2] []) = (b, W) /\ build 9 b W = (Ok P, b', W').
Proof. cbv zeta. split; [repeat constructor|]. do 5 eexists. split; reflexivity. Qed.

(** ** C53 *)
Section Reject.
Context {T : Type} {num : Num T}.

(** A rejected setOption always leaves the builder without option. *)
Theorem C53_rejection_clears : forall o (b : Builder T) e b', setOption o b = (Throw e, b') ->
  bOption b' = None /\ (forall rd W, fst (fst (build rd b' W)) = Throw LogicError) /\
  (* everything else is as before, and an option that fits makes the builder usable again *)
  bClass b' = bClass b /\ bMarket b' = bMarket b /\ bModel b' = bModel b /\ bBasis b' = bBasis b /\
  bRegression b' = bRegression b /\
  (forall o', accepts (bClass b) (optKind o') = true -> setOption (Some o') b' = setOption (Some o') b).
Proof.
  intros o b e b' E. unfold setOption in E.
  assert (Q : b' = mkBuilder (bClass b) (bMarket b) (bModel b) None (bBasis b) (bRegression b)).
  { destruct o as [o|]; [destruct (accepts _ _)|]; [discriminate| |]; now injection E as _ <-. }
  subst b'. now repeat split.
Qed.
End Reject.
Print Assumptions C53_rejection_clears.

Definition american_o : Option R := mkOption American "AAPL" 1%R (PVanilla Put 100%R) None 0.
Theorem C53_refuted : exists (b : Builder R) o e b',
  b = snd (setOption (Some (eu "AAPL")) (Builder_new CSinglePath)) /\ bOption b = Some (eu "AAPL") /\
  setOption (Some o) b = (Throw e, b') /\ bOption b' <> bOption b.
Proof. eexists. exists american_o. do 2 eexists. do 3 (split; [reflexivity|]). discriminate. Qed.
Print Assumptions C53_refuted.

(** ** C54 *)
Section Solver.
Context {T : Type} {num : Num T}.
Variable env : Env T.
Variable la : LinAlg T.

Definition chosen_N (N0 : Z) (cs : list (scall T)) : Z :=
  match latest (fun x => match x with SSetN N => Some N | _ => None end) cs with Some N => N | None => N0 end.
Definition chosen_pricer (cs : list (scall T)) : option (Pricer T) :=
  match latest (fun x => match x with SSetPricer p => Some p | _ => None end) cs with Some p => p | None => None end.

Theorem C54_solver_protocol : forall N0 (cs : list (scall T)) W0 s W,
  srun env la cs (MCSolver_new N0, W0) = (s, W) ->
  solver_solve env la s W =
    match chosen_pricer cs with
    | None => (Throw LogicError, W)
    | Some P => calculatePrice env la P W (chosen_N N0 cs)
    end.
Proof.
  intros N0 cs W0 s W E.
  assert (I : sN s = chosen_N N0 cs /\ sPricer s = chosen_pricer cs).
  { revert s W E. induction cs as [|x cs IH] using rev_ind; intros s W E.
    - injection E as <- <-. now split.
    - unfold srun in E. rewrite fold_left_app in E. fold (srun env la cs (MCSolver_new N0, W0)) in E.
      destruct (srun env la cs (MCSolver_new N0, W0)) as [s1 W1]. destruct (IH s1 W1 eq_refl) as [I1 I2].
      unfold chosen_N, chosen_pricer in *. rewrite !latest_snoc.
      destruct x as [N|p|]; cbn in E; injection E as <- <-; cbn; auto. }
  destruct I as [I1 I2]. unfold solver_solve. now rewrite I1, I2.
Qed.

(** The solver made without a number of simulations uses 100000. *)
Theorem C54_default : forall (cs : list (scall T)) W0 s W P,
  srun env la cs (MCSolver_default, W0) = (s, W) -> (forall N, ~ In (SSetN N) cs) -> chosen_pricer cs = Some P ->
  solver_solve env la s W = calculatePrice env la P W 100000.
Proof.
  intros cs W0 s W P E NI CP. rewrite (C54_solver_protocol _ _ _ _ _ E), CP. f_equal. unfold chosen_N.
  assert (X : latest (fun x : scall T => match x with SSetN N => Some N | _ => None end) cs = None).
  { clear - NI. induction cs as [|x cs IH]; [easy|]. cbn [latest]. rewrite IH by (intros N H; apply (NI N); now right).
    destruct x as [N| |]; try easy. destruct (NI N). now left. }
  now rewrite X.
Qed.
End Solver.
Print Assumptions C54_solver_protocol.
Print Assumptions C54_default.

Example C54_ex : forall P : Pricer R,
  chosen_pricer [SSetPricer None; SSetN 5; SSetPricer (Some P); SSolve; SSetN 7; SSolve] = Some P /\
  chosen_N 100000 [SSetPricer None; SSetN 5; SSetPricer (Some P); SSolve; SSetN 7; SSolve] = 7%Z.
Proof. now split. Qed.
