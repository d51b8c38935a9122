(** Properties C47-C50: when a pricing run is defined, and the American pricer. *)
From Coq Require Import String List ZArith Bool Lia Reals Lra.
From Flocq Require Import Core BinarySingleNaN.
From Verif Require Import M_Num M_Outcome M_Dict M_Stock M_Market M_Payoff M_Option M_Random M_Model
  M_Regression M_MonteCarlo M_Builder S_Double S_Option S_Random S_Model S_Partial S_MonteCarlo S_American
  L_Option L_Model L_MonteCarlo L_American L_Defined P_Model P_MonteCarlo.
Import ListNotations.

(** ** C47 *)

(** Without simulations the pricers divide zero by zero. *)
Lemma zero_over_zero : forall fexp flog (x : b64), @nmul _ (B64 fexp flog) (@ndiv _ (B64 fexp flog) n0 (nofZ 0)) x = B754_nan.
Proof.
  intros fexp flog x. unfold n0. cbn [ndiv nmul nofZ B64].
  assert (N : is_nan (b64_div (b64_ofZ 0) (b64_ofZ 0)) = true) by (vm_compute; reflexivity).
  destruct (b64_div (b64_ofZ 0) (b64_ofZ 0)); try discriminate N. now destruct x.
Qed.

Theorem C47_no_simulations : forall fexp flog env la P W w wm g,
  lives_in P W w wm g -> pcClass P <> CAmerican ->
  exists x, fst (@calculatePrice _ (B64 fexp flog) env la P W 0) = Ok x /\ ~ notnan x.
Proof.
  intros fexp flog env la P W w wm g (L1 & L2 & L3) NA. exists B754_nan. split; [|now cbn].
  unfold calculatePrice. rewrite L1, L2, L3. rewrite <- (zero_over_zero fexp flog (@discount_factor _ (B64 fexp flog) w (optT (pcOption P)))).
  destruct (pcClass P); easy.
Qed.
Print Assumptions C47_no_simulations.

(** More simulations than an int can count never give a price (the Asian pricers count
    with an unsigned long). *)
Lemma sfor_too_many : forall T S n (body : Z -> S -> SM T S) s g a g', (INT_MAX < n)%Z ->
  sfor_int n body s g <> (Ok a, g').
Proof.
  intros T S n body s g a g' H E. unfold sfor_int in E. destruct (Z.leb_spec n INT_MAX); [lia|].
  apply sbind_ok in E. destruct E as (x & g1 & _ & E). discriminate.
Qed.
Theorem C47_too_many_simulations : forall T (num : Num T) env la (P : Pricer T) W N x, (INT_MAX < N)%Z ->
  (forall k, pcClass P <> CAsian k) -> fst (calculatePrice env la P W N) <> Ok x.
Proof.
  intros T num env la P W N x H NA E. unfold calculatePrice in E.
  destruct (market_at W (pcMarket P)) as [w| |]; try discriminate.
  destruct (market_at W (Some (moMarket (pcModel P)))) as [wm| |]; try discriminate.
  destruct (nth_error (wGens W) (moGen (pcModel P))) as [g|]; try discriminate.
  match type of E with fst (let (_, _) := ?m in _) = _ => destruct m as [o g'] eqn:E1 end. cbn [fst] in E. subst o.
  destruct (pcClass P) as [|k|k|k|].
  - unfold single_path_price in E1. cbv zeta in E1. apply sbind_ok in E1. destruct E1 as (? & ? & E1 & _).
    now apply sfor_too_many in E1.
  - now apply (NA k).
  - unfold barrier_price in E1. cbv zeta in E1. apply sbind_ok in E1. destruct E1 as (? & ? & E1 & _).
    now apply sfor_too_many in E1.
  - unfold lookback_price in E1. cbv zeta in E1. apply sbind_ok in E1. destruct E1 as (? & ? & E1 & _).
    now apply sfor_too_many in E1.
  - destruct (pcBasis P) as [b|]; [|discriminate]. destruct (pcRegression P) as [r|]; [|discriminate].
    unfold american_price, american_price_with in E1.
    destruct (gQuasi g), (mdKind (moModel (pcModel P)));
      unfold bridge_price, standard_price, repeat_sim in E1; cbv zeta in E1; apply sbind_ok in E1;
      destruct E1 as (? & ? & E1 & _); now apply sfor_too_many in E1.
Qed.
Print Assumptions C47_too_many_simulations.

(** A generator of dimension 0, which the constructors accept, leaves no last price. *)
Theorem C47_no_steps : forall T (num : Num T) env la (P : Pricer T) W w wm g N x, lives_in P W w wm g ->
  gDim g = 0%Z -> (1 <= N)%Z -> (forall k, pcClass P <> CAsian k) ->
  fst (calculatePrice env la P W N) <> Ok x.
Proof.
  intros T num env la P W w wm g N x (L1 & L2 & L3) G LN NA E. unfold calculatePrice in E. rewrite L1, L2, L3 in E.
  match type of E with fst (let (_, _) := ?m in _) = _ => destruct m as [o g'] eqn:E1 end. cbn [fst] in E. subst o.
  assert (NIL : forall m t h p h', gDim h = 0%Z -> simulatePrices env m wm t h = (Ok p, h') -> p = []).
  { intros m t h p h' H S. apply simulate_length in S. destruct S as [S _]. rewrite H in S. now destruct p. }
  assert (FIRST : forall S (body : Z -> S -> SM T S) s s' g', sfor_int N body s g = (Ok s', g') ->
    exists a g1, body 0%Z s g = (Ok a, g1)).
  { intros S body s s' g'' F. unfold sfor_int in F. destruct (Z.leb_spec N INT_MAX).
    - destruct (Z.to_nat N) eqn:Z; [lia|]. cbn [siter] in F. apply sbind_ok in F. destruct F as (a & g1 & F & _). eauto.
    - apply sbind_ok in F. destruct F as (? & ? & _ & F). discriminate. }
  destruct (pcClass P) as [|k|k|k|].
  - unfold single_path_price in E1. cbv zeta in E1. apply sbind_ok in E1. destruct E1 as (? & ? & E1 & _).
    apply FIRST in E1. destruct E1 as (a & g1 & E1). apply sbind_ok in E1. destruct E1 as (q & g2 & E1 & _).
    unfold simulatePriceAtMaturity in E1. apply sbind_ok in E1. destruct E1 as (p & g3 & E1 & E2).
    apply NIL in E1; [|easy]. subst p. discriminate.
  - now apply (NA k).
  - unfold barrier_price in E1. cbv zeta in E1. apply sbind_ok in E1. destruct E1 as (? & ? & E1 & _).
    apply FIRST in E1. destruct E1 as (a & g1 & E1). apply sbind_ok in E1. destruct E1 as (p & g2 & E1 & E2).
    apply NIL in E1; [|easy]. subst p. apply sbind_ok in E2. destruct E2 as (c & g3 & _ & E2).
    apply sbind_ok in E2. destruct E2 as (l & g4 & E2 & _). unfold slift, getSteps, getDim in E2. rewrite G in E2. discriminate.
  - unfold lookback_price in E1. cbv zeta in E1. apply sbind_ok in E1. destruct E1 as (? & ? & E1 & _).
    apply FIRST in E1. destruct E1 as (a & g1 & E1). apply sbind_ok in E1. destruct E1 as (p & g2 & E1 & E2).
    apply NIL in E1; [|easy]. subst p. apply sbind_ok in E2. destruct E2 as (c & g3 & _ & E2).
    apply sbind_ok in E2. destruct E2 as (l & g4 & E2 & _). unfold slift, getSteps, getDim in E2. rewrite G in E2. discriminate.
  - destruct (pcBasis P) as [b|]; [|discriminate]. destruct (pcRegression P) as [r|]; [|discriminate].
    assert (SIM : forall A (sim : SM T A) l g1, repeat_sim sim N g = (Ok l, g1) -> exists a l', l = a :: l' /\
      exists h h', gDim h = 0%Z /\ sim h = (Ok a, h')).
    { intros A sim l g1 R. destruct (Z.leb_spec N INT_MAX) as [LE|GT].
      - rewrite repeat_sim_eq in R by easy. destruct (Z.to_nat N) eqn:Z; [lia|]. cbn [runs] in R.
        destruct (sim g) as [[a| |] g2] eqn:S; try discriminate.
        destruct (runs sim n g2) as [[l'| |] g3]; try discriminate. injection R as <- <-. eauto 10.
      - unfold repeat_sim in R. now apply sfor_too_many in R. }
    unfold american_price, american_price_with in E1.
    assert (E2 : exists s, (s = bridge_price env la (simulatePriceBackward env (moModel (pcModel P)) wm) (pcOption P) w (moModel (pcModel P)) wm b r N g
        \/ s = standard_price env la (pcOption P) w (moModel (pcModel P)) wm b r N g) /\ s = (Ok x, g')).
    { destruct (gQuasi g), (mdKind (moModel (pcModel P))); eauto. }
    clear E1. destruct E2 as (s & [-> | ->] & E1).
    + unfold bridge_price in E1. cbv zeta in E1. apply sbind_ok in E1. destruct E1 as (l & g1 & E1 & _).
      apply SIM in E1. destruct E1 as (a & l' & -> & h & h' & H & S). unfold simulatePriceAtMaturity in S.
      apply sbind_ok in S. destruct S as (p & g3 & S1 & S2). apply NIL in S1; [|easy]. subst p. discriminate.
    + unfold standard_price in E1. cbv zeta in E1. apply sbind_ok in E1. destruct E1 as (l & g1 & E1 & E2).
      apply SIM in E1. destruct E1 as (a & l' & -> & h & h' & H & S). apply NIL in S; [|easy]. subst a.
      unfold getSteps, getDim in E2. rewrite G in E2. discriminate.
Qed.
Print Assumptions C47_no_steps.

Definition B_market : Market b64 :=
  mkMarket (b64_ofZ 0) [("AAPL"%string, 0%nat)] [] [mkStock (b64_ofZ 100) (b64_ofZ 1) None] [].
Definition B_option : Option b64 :=
  mkOption European "AAPL" (b64_ofZ 1) (PVanilla Call (b64_ofZ 100)) None 0.

(** A builder-made pricer and a solver made with zero simulations price to NaN; with a
    generator of dimension zero or more than INT_MAX simulations there is no price. *)
Theorem C47_refuted : exists (P : Pricer b64) b W b' W',
  b = snd (setOption (Some B_option) (Builder_new CSinglePath)) /\
  W = mkWorld [B_market] [Pseudo_ctor 0 7] /\
  build 7 b W = (Ok P, b', W') /\
  (forall fexp flog env la, exists x,
     fst (@solver_solve _ (B64 fexp flog) env la (setPricer (Some P) (MCSolver_new 0)) W') = Ok x /\ ~ notnan x) /\
  (forall fexp flog env la x,
     fst (@solver_solve _ (B64 fexp flog) env la (setPricer (Some P) (MCSolver_new (INT_MAX + 1))) W') <> Ok x) /\
  (forall fexp flog env la x, exists Q b'',
     build 7 (setStockPriceModel (Some (mkModelObj (mkModel "AAPL" 0 MGBM) 0 0)) b) W = (Ok Q, b'', W) /\
     fst (@solver_solve _ (B64 fexp flog) env la (setPricer (Some Q) MCSolver_default) W) <> Ok x).
Proof.
  do 5 eexists. do 2 (split; [reflexivity|]). split; [reflexivity|]. split; [|split].
  - intros. cbn [solver_solve setPricer MCSolver_new sPricer sN].
    eapply C47_no_simulations; [|easy]. repeat split; reflexivity.
  - intros. cbn [solver_solve setPricer MCSolver_new sPricer sN]. apply C47_too_many_simulations; [lia|easy].
  - intros. do 2 eexists. split; [reflexivity|]. cbn [solver_solve setPricer MCSolver_default MCSolver_new sPricer sN].
    eapply C47_no_steps; [repeat split; reflexivity|reflexivity|lia|easy].
Qed.
Print Assumptions C47_refuted.

(** With 1 <= N <= INT_MAX simulations on a pseudo-random generator of dimension between 1
    and INT_MAX, a model whose distributions can be built and defined market inputs, no
    operation is undefined and the price is a number; for the American pricer, when basis
    and regression fit together. *)
Theorem C47_defined_partial : forall (env : Env (option R)) la (P : Pricer (option R)) W w wm g N,
  (forall s h, def (e_real env s h)) -> (forall s a b h, nneg (e_real env s (EvDraw (SGamma a b) :: h))) ->
  @lives_in (option R) P W w wm g -> accepts (pcClass P) (optKind (pcOption P)) = true -> def_option (pcOption P) ->
  def (getR w) -> def_model (gDim g) (moModel (pcModel P)) wm (optT (pcOption P)) ->
  gQuasi g = None -> (1 <= N <= INT_MAX)%Z -> (1 <= gDim g <= INT_MAX)%Z ->
  (pcClass P = CAmerican -> exists b r, pcBasis P = Some b /\ pcRegression P = Some r /\
     @regression_works _ Rpartial la b r) ->
  exists v : R, fst (@calculatePrice _ Rpartial env la P W N) = Ok (Some v).
Proof.
  intros env la P W w wm g N EV1 EV2 (L1 & L2 & L3) A HO Hr HM G HN HD HA.
  unfold calculatePrice. rewrite L1, L2, L3.
  destruct (pcClass P) eqn:C.
  5:{ destruct (HA eq_refl) as (b & r & -> & -> & RW).
      destruct (tot_american (gDim g) env EV1 EV2 la (pcOption P) w (moModel (pcModel P)) wm b r N g) as (v & g' & E & [x ->]);
        try easy. { destruct (optKind (pcOption P)); easy. }
      rewrite E. cbn. eauto. }
  all: destruct (tot_class (gDim g) env EV1 EV2 (pcClass P) (pcOption P) w (moModel (pcModel P)) wm N) with (g := g)
      as (v & g' & E & _ & _ & [x ->]); rewrite ?C; try easy; rewrite C in E; rewrite E; cbn; eauto.
Qed.
Print Assumptions C47_defined_partial.

(** ** C36, whole paths: with parameters in range, a step of the simulation never takes the
    square root of a negative number (nor any other undefined operation): the path is
    made of positive numbers. *)
Theorem C36_paths_defined : forall (env : Env (option R)) (m : StockModel (option R)) wm t g,
  (forall s h, def (e_real env s h)) -> (forall s a b h, nneg (e_real env s (EvDraw (SGamma a b) :: h))) ->
  gQuasi g = None -> (1 <= gDim g <= INT_MAX)%Z -> def_model (gDim g) m wm t -> nneg t ->
  exists (path : list R) g', @simulatePrices _ Rpartial env m wm t g = (Ok (map Some path), g') /\
    Forall (Rlt 0) path /\ Z.of_nat (List.length path) = gDim g.
Proof.
  intros env m wm t g EV1 EV2 G HD HM HT.
  destruct (tot_simulate (gDim g) env EV1 EV2 m wm t HD HM HT g G eq_refl) as (l & g' & E & _ & _ & F & L).
  assert (Q : exists path, l = map Some path /\ Forall (Rlt 0) path).
  { clear - F. induction F as [|x l (v & -> & V) F (path & -> & P)]; [exists []; split; constructor|].
    exists (v :: path). split; [reflexivity|now constructor]. }
  destruct Q as (path & -> & P). exists path, g'. rewrite map_length in L. repeat split; auto.
Qed.
Print Assumptions C36_paths_defined.

Local Open Scope R_scope.
(** The hypotheses are met by every class of pricer, e.g. with the Bates model. *)
Definition bates_ex : ModelKind (option R) :=
  MBates (Some 2) (Some (4/100)) (Some (3/10)) (Some (-7/10)) (Some (4/100)) (Some 1) (Some (-1/10)) (Some (2/10)) CIREuler.
Definition w_part : Market (option R) :=
  mkMarket (Some (5/100)) [("AAPL"%string, 0%nat)] [] [mkStock (Some 100) (Some (2/10)) (Some (Some (1/100)))] [].
Definition o_part (k : OptionKind) (ty : PayoffType) : Option (option R) :=
  mkOption k "AAPL" (Some 1)
    (match k with Digital => PDigital ty (Some 100) | DoubleDigitalK => PDoubleDigital (Some 90) (Some 110)
     | FloatingLookback => PFloating ty | _ => PVanilla ty (Some 100) end)
    (if isBarrierKind k then Some (Some 90, Down) else None) 0.
Example C47_ex : forall la c k ty N, la_shaped la -> accepts c k = true -> (1 <= N <= INT_MAX)%Z ->
  exists v, fst (@calculatePrice _ Rpartial (mkEnv (fun _ _ => Some 0) (fun _ _ => 2%Z) (fun _ _ _ _ _ => None) (fun _ => None))
    la (mkPricer c (o_part k ty) (Some 0%nat) (mkModelObj (mkModel "AAPL" 0 bates_ex) 0 0)
          (Some (Monomial 3)) (Some LeastSquares)) (mkWorld [w_part] [Pseudo_ctor 12 7]) N) = Ok (Some v).
Proof.
  intros la c k ty N SH A HN.
  assert (dd : forall x : R, def (Some x)) by (intros x; now eexists).
  eapply C47_defined_partial; try reflexivity; try easy.
  - intros. apply dd.
  - intros. eexists. split; [reflexivity|lra].
  - split; [eexists; split; [reflexivity|lra]|]. destruct k; cbn; repeat split; eauto; easy.
  - apply dd.
  - split; [|split; [|split; [apply dd|]]].
    + cbn. repeat split; auto. exists (-7/10). split; [reflexivity|lra].
    + eexists. split; [reflexivity|]. split; [eexists; split; [reflexivity|cbn; lra]|]. split; apply dd.
    + cbn. rewrite Req_bool_false by lra. unfold n0, n1. cbn. rewrite !Rle_bool_false by lra. reflexivity.
  - intros _. do 2 eexists. do 2 (split; [reflexivity|]). eapply works; [easy| |now left|now left]. unfold INT_MAX; lia.
Qed.

Example C36_paths_ex : exists path g', @simulatePrices _ Rpartial
    (mkEnv (fun _ h => match h with EvDraw (SGamma _ _) :: _ => Some 1 | _ => Some (-5) end) (fun _ _ => 2%Z) (fun _ _ _ _ _ => None) (fun _ => None))
    (mkModel "AAPL" 0 (MHeston (Some 2) (Some (4/100)) (Some (3/10)) (Some (-7/10)) (Some (4/100)) CIRMilstein)) w_part
    (Some 1) (Pseudo_ctor 12 7) = (Ok (map Some path), g') /\ Forall (Rlt 0) path /\ Z.of_nat (List.length path) = 12%Z.
Proof.
  assert (dd : forall x : R, def (Some x)) by (intros x; now eexists).
  apply C36_paths_defined; try reflexivity.
  - intros s h. cbn. repeat match goal with |- context [match ?x with _ => _ end] => destruct x end; apply dd.
  - intros. cbn. eexists. split; [reflexivity|]. lra.
  - cbn. unfold INT_MAX. lia.
  - split; [|split; [|split; [apply dd|]]]; [|eexists; split; [reflexivity|]; split; [eexists; split; [reflexivity|cbn; lra]|split; apply dd]|].
    { cbn. repeat split; auto. exists (-7/10). split; [reflexivity|lra]. }
    cbn. unfold n0, n1. cbn. rewrite ?Rle_bool_false by lra. reflexivity.
  - eexists. split; [reflexivity|lra].
Qed.

(** ** C48 *)

(** A price exists only for 1 <= N <= INT_MAX and 1 <= steps <= INT_MAX. *)
Lemma american_range : forall env la P W w wm g N (v : R), lives_in P W w wm g -> pcClass P = CAmerican ->
  (0 <= N)%Z -> (0 <= gDim g)%Z -> fst (calculatePrice env la P W N) = Ok v ->
  (1 <= N <= INT_MAX)%Z /\ (1 <= gDim g <= INT_MAX)%Z.
Proof.
  intros env la P W w wm g N v LV C N0 D0 E.
  assert (NA : forall k, pcClass P <> CAsian k) by congruence.
  assert (N1 : (1 <= N)%Z).
  { assert (N = 0 \/ 1 <= N)%Z as [-> |] by lia; [|easy]. exfalso.
    destruct LV as (L1 & L2 & L3). unfold calculatePrice in E. rewrite L1, L2, L3, C in E.
    destruct (pcBasis P) as [b|]; [|discriminate]. destruct (pcRegression P) as [r|]; [|discriminate].
    assert (A : forall o df n, lsm_down la o df b r [] n [] = Ok []).
    { intros o df. induction n as [|n IH]; [easy|]. exact IH. }
    assert (B : forall back o df dt n h, bridge_down la back o df dt b r n [] [] h = (Ok [], h)).
    { intros back o df dt. induction n as [|n IH]; intros h; [easy|]. apply IH. }
    unfold american_price, american_price_with in E.
    destruct (gQuasi g), (mdKind (moModel (pcModel P)));
      unfold bridge_price, standard_price, repeat_sim in E; cbv zeta in E; unfold sbind, sfor_int in E;
      change (0 <=? INT_MAX)%Z with true in E; cbn [Z.to_nat siter] in E; unfold sret, slift in E;
      cbn [path_col omap bind] in E; rewrite ?A, ?B in E; discriminate. }
  assert (N2 : (N <= INT_MAX)%Z).
  { destruct (Z.leb_spec N INT_MAX); [easy|]. exfalso.
    exact (C47_too_many_simulations R Rnum env la P W N v ltac:(lia) NA E). }
  assert (D1 : (1 <= gDim g)%Z).
  { destruct (Z.eq_dec (gDim g) 0) as [Z|]; [|lia]. exfalso.
    exact (C47_no_steps R Rnum env la P W w wm g N v LV Z N1 NA E). }
  split; [easy|]. split; [easy|].
  destruct LV as (L1 & L2 & L3). unfold calculatePrice in E. rewrite L1, L2, L3, C in E.
  destruct (pcBasis P) as [b|]; [|discriminate]. destruct (pcRegression P) as [r|]; [|discriminate].
  match type of E with fst (let (_, _) := ?m in _) = _ => destruct m as [o g'] eqn:E1 end. cbn [fst] in E. subst o.
  assert (SIM : forall A (sim : SM R A) l g1, repeat_sim sim N g = (Ok l, g1) -> exists a h', sim g = (Ok a, h')).
  { intros A sim l g1 RS. rewrite repeat_sim_eq in RS by easy. destruct (Z.to_nat N) eqn:Z; [lia|]. cbn [runs] in RS.
    destruct (sim g) as [[a| |] g2]; try discriminate. eauto. }
  unfold american_price, american_price_with in E1.
  assert (S : exists p h', simulatePrices env (moModel (pcModel P)) wm (optT (pcOption P)) g = (Ok p, h')).
  { destruct (gQuasi g), (mdKind (moModel (pcModel P)));
      unfold bridge_price, standard_price in E1; cbv zeta in E1; apply sbind_ok in E1;
      destruct E1 as (l & g1 & E1 & _); apply SIM in E1; destruct E1 as (a & h' & E1); eauto.
    unfold simulatePriceAtMaturity in E1. apply sbind_ok in E1. destruct E1 as (p & g3 & E1 & _). eauto. }
  destruct S as (p & h' & S). apply path_nonempty in S; [|easy]. lia.
Qed.

(** The run of the pricer, in terms of the simulated prices by date. *)
Lemma american_run : forall env la P W w wm g N (v : R), lives_in P W w wm g -> wf_pricer P ->
  pcClass P = CAmerican -> (0 <= N)%Z -> (0 <= gDim g)%Z -> fst (calculatePrice env la P W N) = Ok v ->
  (1 <= N <= INT_MAX)%Z /\ (1 <= gDim g <= INT_MAX)%Z /\
  exists lst earlier am b r g',
    price_dates env (moModel (pcModel P)) wm (optT (pcOption P)) (Z.to_nat N) (Z.to_nat (gDim g))
      (bridges (moModel (pcModel P)) g) g = (Ok (lst :: earlier), g') /\
    length lst = Z.to_nat N /\ length earlier = (Z.to_nat (gDim g) - 1)%nat /\
    Forall (fun xs => length xs = Z.to_nat N) earlier /\
    (forall x, option_payoff1 (pcOption P) x = Ok (terminal (optPayoff (pcOption P)) x)) /\
    lsm_cols la (pcOption P) (terminal (optPayoff (pcOption P))) (exp (- getR w * (optT (pcOption P) / IZR (gDim g)))) b r
      earlier (map (terminal (optPayoff (pcOption P))) lst) = Ok am /\
    am <> [] /\ v = Rmean am * exp (- getR w * (optT (pcOption P) / IZR (gDim g))).
Proof.
  intros env la P W w wm g N v LV [A WF] C N0 D0 E.
  destruct (american_range env la P W w wm g N v LV C N0 D0 E) as [RN RD]. split; [easy|]. split; [easy|].
  assert (PAY : forall x, option_payoff1 (pcOption P) x = Ok (terminal (optPayoff (pcOption P)) x)).
  { apply not_floating; [easy|]. rewrite C in A. destruct (optKind (pcOption P)); easy. }
  destruct LV as (L1 & L2 & L3). unfold calculatePrice in E. rewrite L1, L2, L3, C in E.
  destruct (pcBasis P) as [b|]; [|discriminate]. destruct (pcRegression P) as [r|]; [|discriminate].
  match type of E with fst (let (_, _) := ?m in _) = _ => destruct m as [o g'] eqn:E1 end. cbn [fst] in E. subst o.
  destruct (american_ok env la _ _ _ _ _ _ _ _ _ _ _ PAY RN RD E1) as (lst & earlier & am & mn & X1 & X2 & X3 & X4 & X5 & X6 & X7).
  exists lst, earlier, am, b, r, g'. do 6 (split; [assumption|]).
  unfold mean in X6. destruct am as [|a am]; [discriminate|]. split; [easy|]. rewrite X7. injection X6 as <-.
  unfold Rmean, nsum, discount_factor, n0. rewrite INR_IZR_INZ.
  pose proof (fold_sum (fun x => x) (a :: am) 0) as F. rewrite map_id, Rplus_0_l in F. rewrite <- F. reflexivity.
Qed.

Lemma terminal_nonneg : forall p x, 0 <= terminal p x.
Proof.
  intros p x. destruct p as [ty K|ty K|a b|ty]; cbn; unfold vanilla.
  - destruct ty; apply Rmax_r.
  - destruct ty; destruct (Rlt_dec _ _); lra.
  - destruct (Rle_dec a x); [destruct (Rle_dec x b)|]; lra.
  - lra.
Qed.

Theorem C48_american_bounds : forall env la P W w wm g N (v : R), lives_in P W w wm g -> wf_pricer P ->
  pcClass P = CAmerican -> (0 <= N)%Z -> (0 <= gDim g)%Z -> 0 <= getR w ->
  fst (calculatePrice env la P W N) = Ok v ->
  let p := optPayoff (pcOption P) in
  let t := optT (pcOption P) in
  exists dates g',
    price_dates env (moModel (pcModel P)) wm t (Z.to_nat N) (Z.to_nat (gDim g))
      (bridges (moModel (pcModel P)) g) g = (Ok dates, g') /\
    0 <= v <= lmax (map (terminal p) (concat dates)) * exp (- getR w * (t / IZR (gDim g))).
Proof.
  intros env la P W w wm g N v LV WF C N0 D0 Hr E. cbv zeta.
  destruct (american_run env la P W w wm g N v LV WF C N0 D0 E)
    as (RN & RD & lst & earlier & am & b & r & g' & X1 & X2 & X3 & X4 & PAY & X5 & X6 & X7).
  exists (lst :: earlier), g'. split; [easy|].
  set (p := optPayoff (pcOption P)) in *. set (t := optT (pcOption P)) in *.
  set (df := exp (- getR w * (t / IZR (gDim g)))) in *.
  set (M := lmax (map (terminal p) (concat (lst :: earlier)))).
  assert (BND : forall x, In x (concat (lst :: earlier)) -> 0 <= terminal p x <= M).
  { intros x I. split; [apply terminal_nonneg|]. apply lmax_ge. now apply in_map. }
  assert (T0 : 0 <= t) by (destruct WF as [_ [T0 _]]; exact T0).
  assert (DF : 0 < df <= 1).
  { split; [apply exp_pos|]. unfold df. rewrite <- exp_0.
    assert (0 < IZR (gDim g)) by (apply IZR_lt; lia).
    assert (0 <= t / IZR (gDim g)) by (apply Rmult_le_pos; [easy|]; now apply Rlt_le, Rinv_0_lt_compat).
    assert (- getR w * (t / IZR (gDim g)) <= 0) by nra.
    destruct (Req_dec (- getR w * (t / IZR (gDim g))) 0) as [Z|]; [rewrite Z; lra|]. apply Rlt_le, exp_increasing. lra. }
  destruct (lsm_inv la (pcOption P) (terminal p) PAY df b r (fun a => 0 <= a <= M) (Z.to_nat N)) with
    (cols := earlier) (am := map (terminal p) lst) (am' := am) as [V LA].
  - intros a Ha. cbn. split; nra.
  - apply Forall_forall. intros xs I. split; [rewrite Forall_forall in X4; auto|].
    intros x Ix _. apply BND. cbn [concat]. apply in_or_app. right. apply in_concat. eauto.
  - now rewrite map_length.
  - apply Forall_forall. intros a Ia. apply in_map_iff in Ia. destruct Ia as (x & <- & Ix). apply BND.
    cbn [concat]. apply in_or_app. now left.
  - exact X5.
  - rewrite Forall_forall in V. pose proof (Rmean_bounds am 0 M X6 V). rewrite X7. split; nra.
Qed.
Print Assumptions C48_american_bounds.

(** ** C49 *)

(** The value of exercising path [i] at date [tau i], discounted by [disc (tau i)], averaged. *)
Definition exercise_value (p : Payoff R) (dates : list (list R)) (N : nat) (tau : nat -> nat) (disc : nat -> R) : R :=
  Rmean (map (fun i => terminal p (price_at dates (tau i) i) * disc (tau i)) (seq 0 N)).

Lemma exp_pow : forall x n, exp x ^ n = exp (INR n * x).
Proof.
  intros x. induction n as [|n IH]; [cbn; now rewrite Rmult_0_l, exp_0|].
  rewrite S_INR. cbn [pow]. rewrite IH, <- exp_plus. f_equal. ring.
Qed.
Lemma list_nth_map : forall (l : list R), l = map (fun i => nth i l 0) (seq 0 (length l)).
Proof.
  induction l as [|x l IH]; [easy|]. cbn [length seq map nth]. f_equal.
  rewrite <- seq_shift, map_map. exact IH.
Qed.

(** What holds of every run: every path is exercised at a date with a positive payoff or
    kept to maturity, but a cash flow is discounted only over the dates at which some path
    is in the money (and once more at the end). *)
Theorem C49_cash_flows : forall env la P W w wm g N (v : R), lives_in P W w wm g -> wf_pricer P ->
  pcClass P = CAmerican -> (0 <= N)%Z -> (0 <= gDim g)%Z -> fst (calculatePrice env la P W N) = Ok v ->
  let p := optPayoff (pcOption P) in
  let t := optT (pcOption P) in
  let steps := Z.to_nat (gDim g) in
  exists dates g' tau,
    price_dates env (moModel (pcModel P)) wm t (Z.to_nat N) steps (bridges (moModel (pcModel P)) g) g = (Ok dates, g') /\
    (forall i, (i < Z.to_nat N)%nat -> (1 <= tau i <= steps)%nat /\
       ((tau i < steps)%nat -> 0 < terminal p (price_at dates (tau i) i))) /\
    v = exercise_value p dates (Z.to_nat N) tau
          (fun d => exp (- getR w * (t / IZR (gDim g) * INR (S (itm_before p dates d))))).
Proof.
  intros env la P W w wm g N v LV WF C N0 D0 E. cbv zeta.
  destruct (american_run env la P W w wm g N v LV WF C N0 D0 E)
    as (RN & RD & lst & earlier & am & b & r & g' & X1 & X2 & X3 & X4 & PAY & X5 & X6 & X7).
  set (p := optPayoff (pcOption P)) in *. set (t := optT (pcOption P)) in *.
  set (dates := lst :: earlier) in *.
  assert (LD : length dates = Z.to_nat (gDim g)) by (unfold dates; cbn [length]; lia).
  destruct (lsm_exercised la (pcOption P) PAY (exp (- getR w * (t / IZR (gDim g)))) b r dates (Z.to_nat N) earlier
    [lst] (map (terminal p) lst) am (fun _ => S (length earlier))) as [LA [tau X]];
    [easy|easy|easy|now rewrite map_length|now apply start_exercised|easy|].
  exists dates, g', tau. split; [easy|]. split.
  - intros i Hi. destruct (X i Hi) as (Y1 & Y2 & Y3). rewrite <- LD. split; [lia|exact Y3].
  - rewrite X7. unfold exercise_value. rewrite (list_nth_map am), LA.
    unfold Rmean. rewrite !map_length. unfold Rdiv at 1. rewrite Rmult_assoc, (Rmult_comm (/ _)), <- Rmult_assoc.
    unfold Rdiv at 2. f_equal.
    assert (AL : forall l c, Rsum l * c = Rsum (map (fun x => x * c) l)).
    { induction l as [|x l IH]; intros c; [cbn; lra|]. cbn [map Rsum fold_right]. fold (Rsum l).
      rewrite Rmult_plus_distr_r, IH. reflexivity. }
    rewrite AL, map_map. f_equal. apply map_ext_in. intros i Hi. apply in_seq in Hi.
    destruct (X i ltac:(lia)) as (Y1 & Y2 & Y3). rewrite Y2, exp_pow, Rmult_assoc, <- exp_plus. fold p.
    f_equal. f_equal. unfold between, itm_before. replace (tau i - 1)%nat with (Nat.pred (tau i)) by lia.
    fold p. rewrite S_INR. ring.
Qed.
Print Assumptions C49_cash_flows.

(** The full statement C49, for one run: every cash flow is discounted by exp(-r * its date). *)
Definition discounted_from_exercise (p : Payoff R) (dates : list (list R)) (N steps : nat) (r dt v : R) : Prop :=
  exists tau, (forall i, (i < N)%nat -> (1 <= tau i <= steps)%nat) /\
    v = exercise_value p dates N tau (fun d => exp (- r * (dt * INR d))).

(** It holds when some path is in the money at every date before maturity; missing: runs
    with a date at which no path is in the money. *)
Theorem C49_discounting_partial : forall env la P W w wm g N (v : R), lives_in P W w wm g -> wf_pricer P ->
  pcClass P = CAmerican -> (0 <= N)%Z -> (0 <= gDim g)%Z -> fst (calculatePrice env la P W N) = Ok v ->
  let p := optPayoff (pcOption P) in
  let t := optT (pcOption P) in
  let steps := Z.to_nat (gDim g) in
  exists dates g',
    price_dates env (moModel (pcModel P)) wm t (Z.to_nat N) steps (bridges (moModel (pcModel P)) g) g = (Ok dates, g') /\
    ((forall d, (1 <= d < steps)%nat -> some_itm p dates d = true) ->
     discounted_from_exercise p dates (Z.to_nat N) steps (getR w) (t / IZR (gDim g)) v).
Proof.
  intros env la P W w wm g N v LV WF C N0 D0 E. cbv zeta.
  destruct (C49_cash_flows env la P W w wm g N v LV WF C N0 D0 E) as (dates & g' & tau & X1 & X2 & X3).
  exists dates, g'. split; [easy|]. intros A. exists tau. split; [intros i Hi; now apply X2|].
  rewrite X3. unfold exercise_value. f_equal. apply map_ext_in. intros i Hi. apply in_seq in Hi.
  destruct (X2 i ltac:(lia)) as [Y1 _]. f_equal. f_equal. f_equal. f_equal. f_equal.
  unfold itm_before.
  assert (AL : forall l, (forall x, In x l -> some_itm (optPayoff (pcOption P)) dates x = true) ->
    length (filter (some_itm (optPayoff (pcOption P)) dates) l) = length l).
  { induction l as [|x l IH]; intros H; [easy|]. cbn [filter]. rewrite (H x (or_introl eq_refl)). cbn [length].
    f_equal. apply IH. intros y Hy. apply H. now right. }
  rewrite AL, seq_length; [lia|]. intros x Hx. apply in_seq in Hx. apply A. lia.
Qed.
Print Assumptions C49_discounting_partial.

(** A run without price movement from the random draws: rate 1, volatility 1, T = 2, two
    steps, one path; prices exp(1/2) and exp(1), strike exp(1/2). *)
Definition zero_env : Env R := mkEnv (fun _ _ => 0) (fun _ _ => 0%Z) (fun _ _ _ _ _ => 0) (fun _ => 0).
Definition w49 : Market R := mkMarket 1 [("AAPL"%string, 0%nat)] [] [mkStock 1 1 None] [].
Definition P49 (K : R) (ty : PayoffType) : Pricer R :=
  mkPricer CAmerican (mkOption American "AAPL" 2 (PVanilla ty K) None 0) (Some 0%nat)
    (mkModelObj (mkModel "AAPL" 0 MGBM) 0 0) (Some (Monomial 1)) (Some LeastSquares).
Definition W49 : World R := mkWorld [w49] [Pseudo_ctor 2 7].
Definition la0 : LinAlg R := mkLinAlg (fun A y => repeat 0 (match A with [] => 0%nat | row :: _ => length row end))
                                      (fun A y => repeat 0 (match A with [] => 0%nat | row :: _ => length row end)).

Lemma P49_wf : forall K ty, 0 <= K -> call_or_put ty -> wf_pricer (P49 K ty).
Proof. intros K ty H C. split; [reflexivity|]. split; [cbn; lra|]. cbn. split; eauto. Qed.
Lemma P49_lives : forall K ty, lives_in (P49 K ty) W49 w49 w49 (Pseudo_ctor 2 7).
Proof. intros. now repeat split. Qed.
Lemma P49_dates : exists g',
  price_dates zero_env (mkModel "AAPL" 0 MGBM) w49 2 1 2 true (Pseudo_ctor 2 7) = (Ok [[exp 1]; [exp (1/2)]], g').
Proof.
  set (g0 := Pseudo_ctor 2 7).
  assert (S1 : exists g1, simulatePriceAtMaturity zero_env (mkModel "AAPL" 0 MGBM) w49 2 g0 = (Ok (exp 1), g1) /\ gQuasi g1 = None).
  { assert (DR : exists g1, draws zero_env (repeat DStdNormal 2) (snd (new_dist DStdNormal g0)) = (map Ok [0; 0], g1) /\ gQuasi g1 = None).
    { unfold new_dist, Distr_ctor, n0, n1. cbn. rewrite Rle_bool_false by lra. cbn. now eexists. }
    destruct DR as (g1 & DR & Q1). exists g1. split; [|easy].
    unfold simulatePriceAtMaturity, simulatePrices, sbind, slift. cbn [mdStock deref].
    change (deref 0 w49) with (Ok (mkStock (1 : R) 1 None)). cbn [kind_prices mdKind]. change (mR w49) with 1.
    rewrite (gbm_closed zero_env (mkStock 1 1 None) 1 2 g0 [0; 0] g1 ltac:(cbn; unfold INT_MAX; lia) eq_refl DR).
    f_equal. cbn. f_equal. rewrite Rmult_1_l. f_equal. unfold dividend. cbn. lra. }
  destruct S1 as (g1 & S1 & Q1).
  destruct (draw zero_env DStdNormal (snd (new_dist DStdNormal g1))) as [z g2] eqn:DR.
  assert (z = Ok 0).
  { revert DR. unfold draw, new_dist, Distr_ctor, n0, n1. cbn. rewrite Rle_bool_false by lra. cbn. rewrite Q1. now intros [= <- _]. }
  subst z. exists g2. unfold price_dates, runs, sbind. rewrite S1. cbn [bridged Nat.pred each].
  unfold sbind, simulatePriceBackward. cbn [mdKind mdStock]. unfold slift. change (deref 0 w49) with (Ok (mkStock (1 : R) 1 None)).
  unfold sbind. rewrite (backward_value _ _ _ _ _ _ _ _ DR). unfold sret. f_equal. f_equal. f_equal. f_equal. f_equal.
  cbn. rewrite Rmult_1_l. f_equal. rewrite Rmult_0_r, Rplus_0_r. replace (exp 1 / 1) with (exp 1) by (field; lra). rewrite ln_exp. field.
Qed.

Lemma la0_shaped : la_shaped la0.
Proof. intros [|row A] y k H N; [easy|]. cbn. rewrite repeat_length. split; apply H; now left. Qed.

Lemma calc_american : forall (env : Env R) la P W w wm g N b r v g', lives_in P W w wm g -> pcClass P = CAmerican ->
  pcBasis P = Some b -> pcRegression P = Some r ->
  american_price env la (pcOption P) w (moModel (pcModel P)) wm b r N g = (Ok v, g') ->
  fst (calculatePrice env la P W N) = Ok v.
Proof.
  intros env la P W w wm g N b r v g' (L1 & L2 & L3) C B RG E. unfold calculatePrice.
  rewrite L1, L2, L3, C, B, RG, E. reflexivity.
Qed.

Theorem C49_refuted : exists env la P W w wm g N v dates g',
  lives_in P W w wm g /\ wf_pricer P /\ pcClass P = CAmerican /\ (1 <= N)%Z /\ (1 <= gDim g)%Z /\
  fst (calculatePrice env la P W N) = Ok v /\
  price_dates env (moModel (pcModel P)) wm (optT (pcOption P)) (Z.to_nat N) (Z.to_nat (gDim g))
    (bridges (moModel (pcModel P)) g) g = (Ok dates, g') /\
  ~ discounted_from_exercise (optPayoff (pcOption P)) dates (Z.to_nat N) (Z.to_nat (gDim g)) (getR w)
      (optT (pcOption P) / IZR (gDim g)) v.
Proof.
  destruct P49_dates as (g' & PD).
  set (P := P49 (exp (1/2)) Call).
  assert (WF : wf_pricer P) by (apply P49_wf; [apply Rlt_le, exp_pos|now left]).
  assert (PAY : forall x, option_payoff1 (pcOption P) x = Ok (terminal (optPayoff (pcOption P)) x)).
  { apply not_floating; [apply WF|easy]. }
  destruct (american_total zero_env la0 (pcOption P) w49 (moModel (pcModel P)) w49 (Monomial 1) LeastSquares 1 (Pseudo_ctor 2 7)
    [exp 1] [[exp (1/2)]] g' _ PAY) as (v & EV).
  { unfold INT_MAX; lia. } { cbn; unfold INT_MAX; lia. }
  { eapply works; [exact la0_shaped| |now left|now left]. unfold INT_MAX; lia. }
  { exact PD. }
  assert (CV : fst (calculatePrice zero_env la0 P W49 1) = Ok v).
  { eapply calc_american; [apply P49_lives|reflexivity|reflexivity|reflexivity|exact EV]. }
  exists zero_env, la0, P, W49, w49, w49, (Pseudo_ctor 2 7), 1%Z, v, [[exp 1]; [exp (1/2)]], g'.
  do 7 (split; [first [easy | exact PD | cbn; lia]|]).
  assert (L12 : exp (1/2) < exp 1) by (apply exp_increasing; lra).
  assert (L0 : 0 < exp (1/2)) by apply exp_pos.
  destruct (C49_cash_flows zero_env la0 P W49 w49 w49 (Pseudo_ctor 2 7) 1 v (P49_lives _ _) WF eq_refl ltac:(lia) ltac:(cbn; lia) CV)
    as (dates & g2 & tau & X1 & X2 & X3).
  assert (dates = [[exp 1]; [exp (1/2)]]) by (cbv zeta in X1; pose proof (eq_trans (eq_sym PD) X1) as Q; congruence).
  subst dates. clear X1.
  assert (T1 : terminal (PVanilla Call (exp (1/2))) (exp (1/2)) = 0).
  { cbn. unfold Rminus. rewrite Rplus_opp_r. apply Rmax_left. lra. }
  assert (T2 : terminal (PVanilla Call (exp (1/2))) (exp 1) = exp 1 - exp (1/2)).
  { cbn. apply Rmax_left. lra. }
  assert (ITM : some_itm (PVanilla Call (exp (1/2))) [[exp 1]; [exp (1/2)]] 1 = false).
  { unfold some_itm. cbn [length Nat.sub nth existsb]. rewrite T1. destruct (Rlt_dec 0 0); [lra|easy]. }
  change (optPayoff (pcOption P)) with (PVanilla Call (exp (1/2))) in *.
  change (Z.to_nat (gDim (Pseudo_ctor 2 7 : Gen R))) with 2%nat in *.
  change (optT (pcOption P) / IZR (gDim (Pseudo_ctor 2 7 : Gen R))) with (2 / 2) in *.
  change (Z.to_nat 1) with 1%nat in *. change (getR w49) with 1 in *.
  destruct (X2 0%nat ltac:(lia)) as [Y1 Y2].
  assert (TAU : tau 0%nat = 2%nat).
  { destruct (Nat.eq_dec (tau 0%nat) 2); [easy|]. assert (Q : tau 0%nat = 1%nat) by lia. rewrite Q in Y2.
    specialize (Y2 ltac:(lia)). change (price_at [[exp 1]; [exp (1/2)]] 1 0) with (exp (1/2)) in Y2. rewrite T1 in Y2. lra. }
  assert (V : v = (exp 1 - exp (1/2)) * exp (-1)).
  { rewrite X3. unfold exercise_value, Rmean. cbn [seq map Rsum fold_right length INR]. rewrite TAU.
    change (price_at [[exp 1]; [exp (1/2)]] 2 0) with (exp 1). rewrite T2.
    unfold itm_before. cbn [Nat.pred seq filter]. rewrite ITM. cbn [length INR].
    replace (- (1) * (2 / 2 * 1)) with (-1) by lra. field. }
  intros (sig & S1 & S2). specialize (S1 0%nat ltac:(lia)).
  unfold exercise_value, Rmean in S2. cbn [seq map Rsum fold_right length INR] in S2.
  assert (P1 : 0 < exp (-1)) by apply exp_pos.
  assert (C2 : sig 0%nat = 1%nat \/ sig 0%nat = 2%nat) by lia. destruct C2 as [Q|Q]; rewrite Q in S2.
  - change (price_at [[exp 1]; [exp (1/2)]] 1 0) with (exp (1/2)) in S2. rewrite T1 in S2.
    assert (0 < (exp 1 - exp (1/2)) * exp (-1)) by (apply Rmult_lt_0_compat; lra). unfold Rdiv in S2. lra.
  - change (price_at [[exp 1]; [exp (1/2)]] 2 0) with (exp 1) in S2. rewrite T2 in S2. cbn [INR] in S2.
    replace (- (1) * (2 / 2 * (1 + 1))) with (-2) in S2 by lra.
    assert (exp (-2) < exp (-1)) by (apply exp_increasing; lra).
    rewrite V in S2. replace (((exp 1 - exp (1 / 2)) * exp (-2) + 0) / 1) with ((exp 1 - exp (1/2)) * exp (-2)) in S2 by field.
    apply Rmult_eq_reg_l in S2; lra.
Qed.
Print Assumptions C49_refuted.

(** The bounds of C48 and the partial statement of C49 apply to a put that is in the money
    at both dates: strike exp(2). *)
Example C48_ex : exists v, fst (calculatePrice zero_env la0 (P49 (exp 2) Put) W49 1) = Ok v /\
  (forall d, (1 <= d < 2)%nat -> some_itm (PVanilla Put (exp 2)) [[exp 1]; [exp (1/2)]] d = true).
Proof.
  destruct P49_dates as (g' & PD).
  set (P := P49 (exp 2) Put).
  assert (WF : wf_pricer P) by (apply P49_wf; [apply Rlt_le, exp_pos|now right]).
  assert (PAY : forall x, option_payoff1 (pcOption P) x = Ok (terminal (optPayoff (pcOption P)) x)).
  { apply not_floating; [apply WF|easy]. }
  destruct (american_total zero_env la0 (pcOption P) w49 (moModel (pcModel P)) w49 (Monomial 1) LeastSquares 1 (Pseudo_ctor 2 7)
    [exp 1] [[exp (1/2)]] g' _ PAY) as (v & EV).
  { unfold INT_MAX; lia. } { cbn; unfold INT_MAX; lia. }
  { eapply works; [exact la0_shaped| |now left|now left]. unfold INT_MAX; lia. }
  { exact PD. }
  exists v. split.
  - eapply calc_american; [apply P49_lives|reflexivity|reflexivity|reflexivity|exact EV].
  - intros d Hd. assert (d = 1%nat) by lia. subst d. unfold some_itm. cbn [length Nat.sub nth existsb].
    assert (exp (1/2) < exp 2) by (apply exp_increasing; lra).
    destruct (Rlt_dec _ _) as [|X]; [easy|]. exfalso. apply X. cbn. rewrite Rmax_left; lra.
Qed.

(** ** C50 *)

(** Replacing simulatePriceBackward by anything that agrees with it for GBM models, where
    it is supported, changes no price: the pricer never asks another model for a bridge. *)
Theorem C50_bridge_only_supported : forall T (num : Num T) (env : Env T) la o w m wm b r N g back,
  (mdKind m = MGBM -> back = simulatePriceBackward env m wm) ->
  american_price_with env la back o w m wm b r N g = american_price env la o w m wm b r N g.
Proof.
  intros T num env la o w m wm b r N g back H. unfold american_price, american_price_with.
  destruct (gQuasi g); [reflexivity|]. destruct (mdKind m); try reflexivity. now rewrite H.
Qed.
Print Assumptions C50_bridge_only_supported.

(** On a pseudo-random generator no step ends in std::logic_error. *)
Definition nolog {T A} (m : SM T A) : Prop := forall g, gQuasi g = None ->
  fst (m g) <> Throw LogicError /\ gQuasi (snd (m g)) = None.

Section NoLogic.
Context {T : Type} {num : Num T}.
Variable env : Env T.

Lemma nl_ret : forall {A} (a : A), nolog (@sret T A a).
Proof. intros A a g Q. now split. Qed.
Lemma nl_lift : forall {A} (o : outcome A), o <> Throw LogicError -> nolog (@slift T A o).
Proof. intros A o H g Q. now split. Qed.
Lemma nl_bind : forall {A B} (m : SM T A) (f : A -> SM T B), nolog m -> (forall a, nolog (f a)) -> nolog (sbind m f).
Proof.
  intros A B m f M F g Q. destruct (M g Q) as [M1 M2]. unfold sbind. destruct (m g) as [[a|e|] g1]; cbn in *.
  - now apply F.
  - split; [congruence|easy].
  - now split.
Qed.
Lemma nl_siter : forall {A} (body : Z -> A -> SM T A) n i s, (forall i a, nolog (body i a)) -> nolog (siter n i body s).
Proof.
  intros A body. induction n as [|n IH]; intros i s B; [apply nl_ret|]. cbn [siter]. apply nl_bind; auto.
Qed.
Lemma nl_sfor : forall {A} (body : Z -> A -> SM T A) n s, (forall i a, nolog (body i a)) -> nolog (sfor_int n body s).
Proof.
  intros A body n s B. unfold sfor_int. destruct (Z.leb n INT_MAX); [now apply nl_siter|].
  apply nl_bind; [now apply nl_siter|]. intros. now apply nl_lift.
Qed.
Lemma nl_draw : forall d, nolog (draw env d).
Proof. intros d g Q. unfold draw. rewrite Q. now split. Qed.
Lemma nl_poisson : forall l, nolog (draw_poisson env l).
Proof. intros l g Q. unfold draw_poisson. rewrite Q. now split. Qed.
Lemma nl_new : forall d, nolog (@new_dist T num d).
Proof.
  intros d g Q. unfold new_dist, Distr_ctor. destruct d;
    repeat match goal with |- context[if ?c then _ else _] => destruct c end; now split.
Qed.

Ltac nl := repeat (first
  [ apply nl_bind; [|intros] | apply nl_draw | apply nl_poisson | apply nl_new | apply nl_ret
  | apply nl_siter; intros | apply nl_sfor; intros
  | match goal with |- nolog (let '(_, _) := ?p in _) => destruct p as [? ?] end
  | match goal with |- nolog (if ?b then _ else _) => destruct b end
  | match goal with |- nolog (match ?p with _ => _ end) => destruct p as [? ?] end
  | progress unfold kou_jump ]).

Lemma nl_local : forall {A} (m : Gen T -> SM T A), (forall g, nolog (m g)) -> nolog (fun g => m g g).
Proof. intros A m H g. exact (H g g). Qed.

Lemma nl_kind : forall k (d : StockData T) r t, nolog (kind_prices env k d r t).
Proof.
  intros k d r t g Q. revert Q.
  destruct k; cbn [kind_prices];
    unfold gbm_prices, heston_prices, bates_prices, kou_prices, merton_prices, vg_prices; cbv zeta;
    match goal with |- context[?m g] => enough (K : nolog m) by exact (K g) end; nl.
Qed.

Lemma nl_simulate : forall m wm t, nolog (simulatePrices env m wm t).
Proof.
  intros m wm t. unfold simulatePrices. apply nl_bind; [|intros; apply nl_kind].
  apply nl_lift. unfold deref. destruct (nth_error _ _); easy.
Qed.
Lemma nl_maturity : forall m wm t, nolog (simulatePriceAtMaturity env m wm t).
Proof.
  intros m wm t. unfold simulatePriceAtMaturity. apply nl_bind; [apply nl_simulate|]. intros p. apply nl_lift.
  unfold vback. destruct (rev p); easy.
Qed.
Lemma nl_backward : forall m wm x a b, mdKind m = MGBM -> nolog (simulatePriceBackward env m wm x a b).
Proof.
  intros m wm x a b K. unfold simulatePriceBackward. rewrite K. apply nl_bind.
  - apply nl_lift. unfold deref. destruct (nth_error _ _); easy.
  - intros d. unfold gbm_backward. cbv zeta. nl.
Qed.

Definition quiet {A} (o : outcome A) : Prop := o <> Throw LogicError.
Lemma q_bind : forall {A B} (o : outcome A) (f : A -> outcome B), quiet o -> (forall a, quiet (f a)) -> quiet (bind o f).
Proof. intros A B [a|e|] f H F; cbn; [apply F| |easy]. intros E. apply H. congruence. Qed.

Variable la : LinAlg T.
Variable o : Option T.
Hypothesis PAY : forall x, quiet (option_payoff1 o x).
Variable b : Basis T.
Variable r : Regression T.
Hypothesis GEN : forall xs, quiet (generate b xs).
Hypothesis SOLVE : forall A y, quiet (solve la r A y).

Lemma q_vget : forall {A} (l : list A) i, quiet (vget l i).
Proof. intros A l i. unfold vget. repeat match goal with |- context[if ?c then _ else _] => destruct c end; try destruct (nth_error _ _); easy. Qed.
Lemma q_omap : forall {A B} (f : A -> outcome B) l, (forall x, quiet (f x)) -> quiet (omap f l).
Proof. intros A B f l H. induction l; cbn [omap]; [easy|]. apply q_bind; [auto|]. intros. now apply q_bind. Qed.
Lemma q_decide : forall df bases coeffs xs fl am i, quiet (decide o df bases coeffs i xs fl am).
Proof.
  intros df bases coeffs. induction xs as [|x xs IH]; intros fl am i; [easy|].
  destruct fl as [|[] fl]; [easy| |]; (destruct am as [|a am]; [easy|]); cbn [decide].
  - apply q_bind; [auto|]. intros. apply q_bind; [apply q_vget|]. intros.
    apply q_bind; [unfold row_times; destruct (Nat.eqb _ _); easy|]. intros. now apply q_bind.
  - now apply q_bind.
Qed.
Lemma q_exercise : forall df xs am c, quiet (exercise_or_continue la o df b r xs am c).
Proof.
  intros df xs am [[itm cfs] fl]. unfold exercise_or_continue. destruct itm; [easy|].
  apply q_bind; [apply GEN|]. intros. apply q_bind; [apply SOLVE|]. intros. apply q_decide.
Qed.
Lemma q_collect : forall df xs am, quiet (collect o df xs am).
Proof.
  intros df. induction xs as [|x xs IH]; intros [|a am]; try easy. cbn [collect].
  apply q_bind; [auto|]. intros. apply q_bind; [apply IH|]. intros [[? ?] ?]. easy.
Qed.
Lemma q_lsm : forall df paths n am, quiet (lsm_down la o df b r paths n am).
Proof.
  intros df paths. induction n as [|n IH]; intros am; cbn [lsm_down]; [easy|].
  apply q_bind; [apply q_omap; intros; apply q_vget|]. intros. apply q_bind; [apply q_collect|]. intros.
  apply q_bind; [apply q_exercise|]. intros. apply IH.
Qed.
Lemma nl_collect_bridge : forall back df t1 t2, (forall x a b, nolog (back x a b)) ->
  forall xs am, nolog (@collect_bridge T num back o df t1 t2 xs am).
Proof.
  intros back df t1 t2 B. induction xs as [|x xs IH]; intros [|a am]; try apply nl_ret. cbn [collect_bridge].
  apply nl_bind; [apply B|]. intros. apply nl_bind; [apply nl_lift, PAY|]. intros. apply nl_bind; [apply IH|].
  intros [ys [[? ?] ?]]. apply nl_ret.
Qed.
Lemma nl_bridge_down : forall back df dt, (forall x a b, nolog (back x a b)) ->
  forall n xs am, nolog (bridge_down la back o df dt b r n xs am).
Proof.
  intros back df dt B. induction n as [|n IH]; intros xs am; [apply nl_ret|]. cbn [bridge_down]. cbv zeta.
  apply nl_bind; [now apply nl_collect_bridge|]. intros [ys c]. apply nl_bind; [apply nl_lift, q_exercise|].
  intros. apply IH.
Qed.
Lemma q_mean : forall l : list T, quiet (mean l).
Proof. now intros []. Qed.

Lemma american_quiet : forall w m wm N g, gQuasi g = None ->
  fst (american_price env la o w m wm b r N g) <> Throw LogicError.
Proof.
  intros w m wm N g Q.
  assert (ST : fst (standard_price env la o w m wm b r N g) <> Throw LogicError).
  { unfold standard_price. cbv zeta. match goal with |- fst (?m g) <> _ => enough (K : nolog m) by now apply K end.
    apply nl_bind; [unfold repeat_sim; apply nl_sfor; intros; apply nl_bind; [apply nl_simulate|intros; apply nl_ret]|].
    intros. apply nl_lift. apply q_bind; [apply q_omap; intros; apply q_vget|]. intros.
    apply q_bind; [apply q_omap, PAY|]. intros. apply q_bind; [apply q_lsm|]. intros. apply q_bind; [apply q_mean|easy]. }
  unfold american_price, american_price_with. rewrite Q. destruct (mdKind m) eqn:K; try exact ST.
  unfold bridge_price. cbv zeta. match goal with |- fst (?m g) <> _ => enough (X : nolog m) by now apply X end.
  apply nl_bind; [unfold repeat_sim; apply nl_sfor; intros; apply nl_bind; [apply nl_maturity|intros; apply nl_ret]|].
  intros. apply nl_bind; [apply nl_lift, q_omap, PAY|]. intros.
  apply nl_bind; [apply nl_bridge_down; intros; now apply nl_backward|]. intros.
  apply nl_bind; [apply nl_lift, q_mean|]. intros. apply nl_ret.
Qed.
End NoLogic.

(** On a pseudo-random generator an American pricer made by the builder throws no
    std::logic_error at all, provided its basis and regression throw none. *)
Theorem C50_no_logic_error : forall T (num : Num T) (env : Env T) la P W w wm g N b r,
  lives_in P W w wm g -> pcClass P = CAmerican -> pcBasis P = Some b -> pcRegression P = Some r ->
  gQuasi g = None -> (forall ty, optPayoff (pcOption P) <> PFloating ty) ->
  (forall xs, generate b xs <> Throw LogicError) -> (forall A y, solve la r A y <> Throw LogicError) ->
  fst (calculatePrice env la P W N) <> Throw LogicError.
Proof.
  intros T num env la P W w wm g N b r (L1 & L2 & L3) C B RG Q NF G S E.
  unfold calculatePrice in E. rewrite L1, L2, L3, C, B, RG in E.
  assert (X := american_quiet env la (pcOption P)). unfold quiet in X.
  specialize (X ltac:(intros x; unfold option_payoff1; specialize (NF); destruct (optPayoff (pcOption P)) as [ | | |ty]; cbn; try easy; now destruct (NF ty))).
  specialize (X b r G S w (moModel (pcModel P)) wm N g Q).
  destruct (american_price _ _ _ _ _ _ _ _ _ g) as [x g']. now apply X.
Qed.
Print Assumptions C50_no_logic_error.

(** The library's bases and regressions throw none. *)
Example C50_ex : forall (la : LinAlg R) n (xs : list R) A y,
  generate (Laguerre n) xs <> Throw LogicError /\ solve la (Ridge 1) A y <> Throw LogicError /\
  solve la LeastSquares A y <> Throw LogicError /\ solve la (Lasso 1) A y <> Throw LogicError.
Proof.
  intros. unfold generate, solve.
  repeat match goal with |- context[if ?c then _ else _] => destruct c end; repeat split; try easy.
Qed.
