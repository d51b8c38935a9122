(** Properties C94-C97: what the Monte Carlo prices estimate.  Expectations are those of
    S_Expect.v: independent draws with the laws of the distribution objects. *)
From Coq Require Import String List ZArith Reals Bool Lra Lia.
From Coquelicot Require Import Coquelicot.
From Flocq Require Import Core.
From Verif Require Import M_Num M_Outcome M_Dict M_Stock M_Market M_Payoff M_Option M_Random M_Model
  M_Regression M_MonteCarlo M_Builder S_Market S_Option S_Model S_Prob S_MonteCarlo S_Expect S_PriceMean S_Normal
  L_Gauss L_Martingale L_MonteCarlo L_Expect L_Sampler L_Growth L_PriceMean L_Normal L_Lognormal P_McRelations P_Growth.
Import ListNotations.
Local Open Scope R_scope.

(** ** C94.  If the payoff of a simulated path has mean mu, the price has mean
    exp(-r T) mu, for every number of paths. *)
Theorem C94_unbiased : forall la P W w wm g N mu,
  wf_pricer P -> pcClass P <> CAmerican -> lives_in P W w wm g ->
  (1 <= N <= INT_MAX)%Z -> gQuasi g = None -> (1 <= getDim g)%Z ->
  let o := pcOption P in
  is_mean (fun env => simulatePrices env (moModel (pcModel P)) wm (optT o)) g (path_value o) mu ->
  is_price_mean la P W N (fun v => v) (exp (- getR w * optT o) * mu).
Proof.
  intros la P W w wm g N mu WF NA L LN Q LD o H.
  apply (price_mean_iff la P W w wm g N WF NA L LN Q LD).
  apply (mean_iff (getDim g) _ (path_sampler (moModel (pcModel P)) wm (optT o) (getDim g))) in H; [|apply r_simulate|easy|easy].
  apply runs_mean; [apply wf_psim|lia|exact H].
Qed.
Print Assumptions C94_unbiased.

(** A price has at most one mean, so an estimator with mean exp(-r T) mu has no other. *)
Theorem C94_unique : forall la P W w wm g N f a b,
  wf_pricer P -> pcClass P <> CAmerican -> lives_in P W w wm g ->
  (1 <= N <= INT_MAX)%Z -> gQuasi g = None -> (1 <= getDim g)%Z ->
  is_price_mean la P W N f a -> is_price_mean la P W N f b -> a = b.
Proof.
  intros la P W w wm g N f a b WF NA L LN Q LD A B.
  apply (price_mean_iff la P W w wm g N WF NA L LN Q LD) in A. apply (price_mean_iff la P W w wm g N WF NA L LN Q LD) in B.
  eapply E_unique; eassumption.
Qed.
Print Assumptions C94_unique.

(** ** C95.  The variance of the price is the variance of the discounted payoff over N,
    and so bounds the probability of an error of [eps] or more. *)
Theorem C95_variance : forall la P W w wm g N mu s,
  wf_pricer P -> pcClass P <> CAmerican -> lives_in P W w wm g ->
  (1 <= N <= INT_MAX)%Z -> gQuasi g = None -> (1 <= getDim g)%Z ->
  let o := pcOption P in
  let c := exp (- getR w * optT o) in
  is_mean (fun env => simulatePrices env (moModel (pcModel P)) wm (optT o)) g (path_value o) mu ->
  is_mean (fun env => simulatePrices env (moModel (pcModel P)) wm (optT o)) g
    (fun path => (path_value o path - mu) * (path_value o path - mu)) s ->
  is_price_mean la P W N (fun v => (v - c * mu) * (v - c * mu)) (c * c * s / IZR N) /\
  forall eps q, 0 < eps -> is_price_mean la P W N (fun v => if Rle_dec eps (Rabs (v - c * mu)) then 1 else 0) q ->
    q <= c * c * s / (IZR N * (eps * eps)).
Proof.
  intros la P W w wm g N mu s WF NA L LN Q LD o c H V.
  apply (mean_iff (getDim g) _ (path_sampler (moModel (pcModel P)) wm (optT o) (getDim g))) in H; [|apply r_simulate|easy|easy].
  apply (mean_iff (getDim g) _ (path_sampler (moModel (pcModel P)) wm (optT o) (getDim g))) in V; [|apply r_simulate|easy|easy].
  assert (NN : INR (Z.to_nat N) = IZR N) by (rewrite INR_IZR_INZ, Z2Nat.id by lia; reflexivity).
  assert (N0 : 0 < IZR N) by (apply IZR_lt; lia).
  pose proof (runs_variance (psim P wm g) (path_value o) mu s (Z.to_nat N) c (wf_psim P wm g) ltac:(lia) H V) as E. rewrite NN in E.
  split; [apply (price_mean_iff la P W w wm g N WF NA L LN Q LD); exact E|].
  intros eps q Ep I. apply (price_mean_iff la P W w wm g N WF NA L LN Q LD) in I.
  assert (E2 : 0 < / (eps * eps)) by (apply Rinv_0_lt_compat; nra).
  replace (c * c * s / (IZR N * (eps * eps))) with (/ (eps * eps) * (c * c * s / IZR N)) by (field; lra).
  eapply E_mono; [apply (wf_runs _ (wf_psim P wm g))| |exact I|exact (E_scal _ _ _ (/ (eps * eps)) E)].
  intros l. cbn beta. change (value_of P w l) with (c * Rmean (map (path_value o) l)).
  set (e := c * Rmean (map (path_value o) l) - c * mu). destruct (Rle_dec eps (Rabs e)) as [G|G].
  - assert (eps * eps <= e * e) by (replace (e * e) with (Rabs e * Rabs e) by (rewrite <- Rabs_mult; apply Rabs_pos_eq; nra); nra).
    apply (Rmult_le_reg_l (eps * eps)); [nra|]. rewrite <- Rmult_assoc, Rinv_r by nra. lra.
  - apply Rmult_le_pos; [lra|nra].
Qed.
Print Assumptions C95_variance.

(** [Phi] is the normal distribution function. *)
Theorem normal_cdf : forall x, is_Enormal (fun z => if Rle_dec z x then 1 else 0) (Phi x).
Proof.
  intros x. pose proof (Enormal_lin _ _ _ _ 1 (-1) (Enormal_const 1) (Enormal_half (fun z => if Rle_dec z x then 0 else 1) x
    ltac:(intros z Lt; cbv beta; destruct (Rle_dec z x); [lra|reflexivity]) ltac:(intros z Lt; cbv beta; destruct (Rle_dec z x); [reflexivity|lra]))) as E.
  rewrite Phi_opp in E. replace (1 * 1 + -1 * (1 - Phi x)) with (Phi x) in E by ring.
  eapply is_Enormal_ext; [|exact E]. intros z. cbn. destruct (Rle_dec z x); ring.
Qed.
Print Assumptions normal_cdf.

(** ** C96.  Black-Scholes: the expected price of a European, digital or double digital
    option under GBM is the discounted closed formula, whatever the number of steps and
    of paths. *)
Section Setting.
Variables (la : LinAlg R) (P : Pricer R) (W : World R) (w wm : Market R) (g : Gen R) (N : Z) (d : StockData R).
Definition gbm_setting : Prop :=
  wf_pricer P /\ lives_in P W w wm g /\ (1 <= N <= INT_MAX)%Z /\ gQuasi g = None /\ (1 <= getDim g <= INT_MAX)%Z /\
  mdKind (moModel (pcModel P)) = MGBM /\ deref (mdStock (moModel (pcModel P))) wm = Ok d /\
  0 < getPrice d /\ 0 < getSigma d /\ 0 < optT (pcOption P) /\ positive_strikes (optPayoff (pcOption P)).

Lemma gbm_price : forall F f m, gbm_setting -> pcClass P <> CAmerican ->
  (forall path, path_value (pcOption P) path = f path) ->
  is_E (piter (Z.to_nat (getDim g)) (record (fun S => S) (gbm_step d (mR wm) (optT (pcOption P)) (getDim g))) (getPrice d, []))
    (fun st => F (f (snd st))) m ->
  is_mean (fun env => simulatePrices env (moModel (pcModel P)) wm (optT (pcOption P))) g (fun path => F (path_value (pcOption P) path)) m.
Proof.
  intros F f m (WF & L & LN & Q & (LD & LD') & K & D & _) NA Ef H.
  apply (mean_iff (getDim g) _ (path_sampler (moModel (pcModel P)) wm (optT (pcOption P)) (getDim g))); [apply r_simulate|easy|easy|].
  unfold path_sampler. rewrite D. cbn [pbind]. rewrite K. cbn [kind_sampler]. unfold gbm_sampler. apply E_new; [apply ctor_std|].
  unfold pfor_int. destruct (Z.leb_spec (getDim g) INT_MAX); [|lia].
  apply (E_map _ snd). eapply E_ext; [|exact H]. intros st. cbn. now rewrite Ef.
Qed.

Definition single_price (k : OptionKind) : Prop := k = European \/ k = Digital \/ k = DoubleDigitalK.

Lemma gbm_terminal : forall k, gbm_setting -> single_price k -> optKind (pcOption P) = k ->
  let o := pcOption P in
  is_mean (fun env => simulatePrices env (moModel (pcModel P)) wm (optT o)) g (path_value o)
    (lognormal_payoff (optPayoff o) (forward wm d (optT o)) (getSigma d * sqrt (optT o))).
Proof.
  intros k G SP K o. assert (NA : pcClass P <> CAmerican).
  { destruct G as ((A & _) & _). intros C. rewrite C, K in A. destruct SP as [->|[->| ->]]; discriminate. }
  apply (gbm_price (fun x => x) (fun path => terminal (optPayoff o) (last path 0)) _ G NA).
  { intros path. unfold path_value. fold o. fold o in K. rewrite K. destruct SP as [->|[->| ->]]; reflexivity. }
  destruct G as (WF & L & LN & Q & (LD & LD') & KM & D & S0 & SG & T0 & PS).
  assert (GD : 0 < IZR (getDim g)) by (apply IZR_lt; lia).
  assert (DT : 0 < optT o / IZR (getDim g)) by (apply Rdiv_lt_0_compat; easy).
  pose proof (gbm_end d (mR wm) (optT o) (getDim g) SG DT (Z.to_nat (getDim g)) (getPrice d) (optPayoff o) ltac:(lia) S0 PS) as E.
  assert (NN : INR (Z.to_nat (getDim g)) = IZR (getDim g)) by (rewrite INR_IZR_INZ, Z2Nat.id by lia; reflexivity).
  rewrite NN in E. replace (IZR (getDim g) * (optT o / IZR (getDim g))) with (optT o) in E by (field; lra). exact E.
Qed.

Theorem C96_black_scholes : forall k, gbm_setting -> single_price k -> optKind (pcOption P) = k ->
  let o := pcOption P in
  is_price_mean la P W N (fun v => v)
    (exp (- getR w * optT o) * lognormal_payoff (optPayoff o) (forward wm d (optT o)) (getSigma d * sqrt (optT o))).
Proof.
  intros k G SP K o. pose proof (gbm_terminal k G SP K) as M. assert (NA : pcClass P <> CAmerican).
  { destruct G as ((A & _) & _). intros C. rewrite C, K in A. destruct SP as [->|[->| ->]]; discriminate. }
  destruct G as (WF & L & LN & Q & (LD & _) & _). now apply (C94_unbiased la P W w wm g N).
Qed.

(** With one interest rate, the usual form: S exp(-cT) Phi(d1) - K exp(-rT) Phi(d2). *)
Theorem C96_call : forall K, gbm_setting -> optKind (pcOption P) = European -> optPayoff (pcOption P) = PVanilla Call K ->
  getR wm = getR w ->
  let T := optT (pcOption P) in
  let r := getR w in
  let c := dividend d in
  let v := getSigma d * sqrt T in
  let d1 := (ln (getPrice d / K) + (r - c + getSigma d * getSigma d / 2) * T) / v in
  is_price_mean la P W N (fun v => v) (getPrice d * exp (- c * T) * Phi d1 - K * exp (- r * T) * Phi (d1 - v)).
Proof.
  intros K G KE PV RR T r c v d1. pose proof (C96_black_scholes European G ltac:(now left) KE) as H. cbv zeta in H.
  rewrite PV in H. cbn [lognormal_payoff] in H. fold T in H.
  destruct G as (_ & _ & _ & _ & _ & _ & _ & S0 & SG & T0 & PS). rewrite PV in PS. cbn in PS. fold T in T0.
  assert (V0 : 0 < v) by (unfold v; apply Rmult_lt_0_compat; [easy|now apply sqrt_lt_R0]).
  assert (D1 : black_d1 (forward wm d T) K v = d1).
  { unfold black_d1, d1. f_equal. unfold forward. rewrite RR. fold r. fold c.
    replace (getPrice d * exp ((r - c) * T) / K) with (getPrice d / K * exp ((r - c) * T)) by (field; lra).
    rewrite ln_mult, ln_exp by (first [apply exp_pos | now apply Rdiv_lt_0_compat]).
    replace (v * v) with (getSigma d * getSigma d * (sqrt T * sqrt T)) by (unfold v; ring). rewrite sqrt_sqrt by lra. field. }
  fold v in H. unfold black_call, black_d2 in H. rewrite D1 in H.
  replace (getPrice d * exp (- c * T) * Phi d1 - K * exp (- r * T) * Phi (d1 - v))
    with (exp (- getR w * T) * (forward wm d T * Phi d1 - K * Phi (d1 - v))); [exact H|].
  unfold forward. rewrite RR. fold r. fold c.
  replace (- c * T) with (- r * T + (r - c) * T) by ring. rewrite exp_plus. ring.
Qed.

(** The standard error of a digital price. *)
Theorem C96_digital_variance : forall ty K, gbm_setting -> call_or_put ty ->
  optKind (pcOption P) = Digital -> optPayoff (pcOption P) = PDigital ty K ->
  let o := pcOption P in
  let c := exp (- getR w * optT o) in
  let q := lognormal_payoff (optPayoff o) (forward wm d (optT o)) (getSigma d * sqrt (optT o)) in
  is_price_mean la P W N (fun v => (v - c * q) * (v - c * q)) (c * c * (q * (1 - q)) / IZR N).
Proof.
  intros ty K G CP KD PD o c q. assert (SP : single_price Digital) by (right; now left).
  assert (M : is_mean (fun env => simulatePrices env (moModel (pcModel P)) wm (optT o)) g (path_value o) q)
    by exact (gbm_terminal Digital G SP KD).
  assert (NA : pcClass P <> CAmerican).
  { destruct G as ((A & _) & _). intros C. rewrite C, KD in A. discriminate. }
  destruct G as (WF & L & LN & Q & (LD & _) & _).
  apply (C95_variance la P W w wm g N q (q * (1 - q)) WF NA L LN Q LD M).
  apply (mean_iff (getDim g) _ (path_sampler (moModel (pcModel P)) wm (optT o) (getDim g))) in M; [|apply r_simulate|easy|easy].
  apply (mean_iff (getDim g) _ (path_sampler (moModel (pcModel P)) wm (optT o) (getDim g))); [apply r_simulate|easy|easy|].
  pose proof (E_one _ _ _ (wf_psim P wm g) M) as O.
  pose proof (E_lin _ _ _ _ _ (1 - 2 * q) (q * q) M O) as E.
  replace ((1 - 2 * q) * q + q * q * 1) with (q * (1 - q)) in E by ring.
  eapply E_ext; [|exact E]. intros path. cbn beta. fold o.
  assert (B : path_value o path = 0 \/ path_value o path = 1).
  { unfold path_value, o. rewrite KD, PD. cbn. destruct ty; destruct (Rlt_dec _ _); auto. }
  destruct B as [-> | ->]; ring.
Qed.

(** ** C97.  The geometric Asian option with the price averaged over the n dates of the
    path: Black's formula with the mean and the variance of the discrete average. *)
Theorem C97_geometric_asian : gbm_setting -> optKind (pcOption P) = GeometricAsian ->
  let o := pcOption P in
  let n := IZR (getDim g) in
  let sigma := getSigma d in
  let u := optT o * (n + 1) / (2 * n) in
  let q := optT o * (n + 1) * (2 * n + 1) / (6 * n * n) in
  is_price_mean la P W N (fun v => v)
    (exp (- getR w * optT o) *
     lognormal_payoff (optPayoff o)
       (getPrice d * exp ((getR wm - dividend d - sigma * sigma / 2) * u + sigma * sigma * q / 2)) (sigma * sqrt q)).
Proof.
  intros G K o n sigma u q. assert (NA : pcClass P <> CAmerican).
  { destruct G as ((A & _) & _). intros C. rewrite C, K in A. discriminate. }
  assert (M : is_mean (fun env => simulatePrices env (moModel (pcModel P)) wm (optT o)) g (path_value o)
     (lognormal_payoff (optPayoff o)
       (getPrice d * exp ((getR wm - dividend d - sigma * sigma / 2) * u + sigma * sigma * q / 2)) (sigma * sqrt q))).
  { apply (gbm_price (fun x => x) (fun path => terminal (optPayoff o) (geometric_mean path)) _ G NA).
    { intros path. unfold path_value. now rewrite K. }
    destruct G as (WF & L & LN & Q & (LD & LD') & KM & D & S0 & SG & T0 & PS).
    assert (GD : 0 < n) by (apply IZR_lt; lia).
    assert (DT : 0 < optT o / IZR (getDim g)) by (apply Rdiv_lt_0_compat; easy).
    pose proof (gbm_geo d (mR wm) (optT o) (getDim g) SG DT (Z.to_nat (getDim g)) ltac:(lia) (getPrice d) (optPayoff o) S0 PS) as E.
    cbv zeta in E.
    assert (NN : INR (Z.to_nat (getDim g)) = n) by (unfold n; rewrite INR_IZR_INZ, Z2Nat.id by lia; reflexivity).
    rewrite NN in E. fold n in E. fold sigma in E.
    replace (optT o / n * (n + 1) / 2) with u in E by (unfold u; field; lra).
    replace (optT o / n * (n + 1) * (2 * n + 1) / (6 * n)) with q in E by (unfold q; field; lra). exact E. }
  destruct G as (WF & L & LN & Q & (LD & _) & _). now apply (C94_unbiased la P W w wm g N).
Qed.
End Setting.
Print Assumptions C96_black_scholes.
Print Assumptions C96_call.
Print Assumptions C96_digital_variance.
Print Assumptions C97_geometric_asian.

(** *** An instance: AAPL at 100, sigma 0.2, r 0.05, one year, n dates, N paths. *)
Lemma example_setting : forall c k p n N, wf_pricer (pricer_on c k p None 0) -> positive_strikes p ->
  (1 <= n <= INT_MAX)%Z -> (1 <= N <= INT_MAX)%Z ->
  gbm_setting (pricer_on c k p None 0) (world_at 100 n) (w_at 100) (w_at 100) (Pseudo_ctor1 n 7) N (mkStock 100 (2/10) None).
Proof.
  intros c k p n N WF PS Ln LN. repeat (split; [solve [easy | cbn; lra]|]). exact PS.
Qed.

Example C94_ex : forall la n N, (1 <= n <= INT_MAX)%Z -> (1 <= N <= INT_MAX)%Z ->
  is_price_mean la (pricer_on CSinglePath European (PVanilla Call 90) None 0) (world_at 100 n) N (fun v => v)
    (100 * exp (- 0 * 1) * Phi ((ln (100 / 90) + (5/100 - 0 + 2/10 * (2/10) / 2) * 1) / (2/10 * sqrt 1))
     - 90 * exp (- (5/100) * 1) * Phi ((ln (100 / 90) + (5/100 - 0 + 2/10 * (2/10) / 2) * 1) / (2/10 * sqrt 1) - 2/10 * sqrt 1)).
Proof.
  intros la n N Ln LN.
  exact (C96_call la (pricer_on CSinglePath European (PVanilla Call 90) None 0) (world_at 100 n) (w_at 100) (w_at 100)
    (Pseudo_ctor1 n 7) N (mkStock 100 (2/10) None) 90
    (example_setting CSinglePath European (PVanilla Call 90) n N ltac:(pwf) ltac:(cbn; lra) Ln LN) eq_refl eq_refl eq_refl).
Qed.

Lemma digital_wf : wf_pricer (pricer_on CSinglePath Digital (PDigital Call 90) None 0).
Proof. split; [reflexivity|]. unfold wf_option; cbn. split; [lra|]. split; [|reflexivity]. exists Call, 90. split; [now left|]. split; [lra|reflexivity]. Qed.

(** A digital call: the estimate has a positive variance, so C95 is not about constants. *)
Example C95_ex : forall la n N, (1 <= n <= INT_MAX)%Z -> (1 <= N <= INT_MAX)%Z ->
  exists q, 0 < q < 1 /\
    is_price_mean la (pricer_on CSinglePath Digital (PDigital Call 90) None 0) (world_at 100 n) N (fun v => v)
      (exp (- (5/100) * 1) * q) /\
    is_price_mean la (pricer_on CSinglePath Digital (PDigital Call 90) None 0) (world_at 100 n) N
      (fun v => (v - exp (- (5/100) * 1) * q) * (v - exp (- (5/100) * 1) * q))
      (exp (- (5/100) * 1) * exp (- (5/100) * 1) * (q * (1 - q)) / IZR N).
Proof.
  intros la n N Ln LN.
  pose proof (example_setting CSinglePath Digital (PDigital Call 90) n N digital_wf ltac:(cbn; lra) Ln LN) as G.
  exists (Phi (black_d2 (forward (w_at 100) (mkStock 100 (2/10) None) 1) 90 (2/10 * sqrt 1))).
  split; [apply Phi_strict|].
  split; [exact (C96_black_scholes la _ _ _ _ _ N _ Digital G ltac:(right; now left) eq_refl)|].
  exact (C96_digital_variance la _ _ _ _ _ N _ Call 90 G ltac:(now left) eq_refl eq_refl).
Qed.

Example C97_ex : forall la n N, (1 <= n <= INT_MAX)%Z -> (1 <= N <= INT_MAX)%Z -> exists m,
  is_price_mean la (pricer_on (CAsian Geometric) GeometricAsian (PVanilla Put 110) None 0) (world_at 100 n) N (fun v => v) m.
Proof.
  intros la n N Ln LN. eexists.
  exact (C97_geometric_asian la _ _ _ _ _ N _
    (example_setting (CAsian Geometric) GeometricAsian (PVanilla Put 110) n N ltac:(pwf) ltac:(cbn; lra) Ln LN) eq_refl).
Qed.
