(** C128: prices computed in double precision on quasi-random points, against Black-Scholes. *)
From Coq Require Import String List ZArith Bool Lia Reals Lra.
From Flocq Require Import Core BinarySingleNaN.
From Verif Require Import M_Num M_Outcome M_Dict M_Stock M_Market M_Payoff M_Option M_Random M_Model
  M_Regression M_MonteCarlo M_Builder S_Double S_Order S_Random S_Quasi S_Model S_MonteCarlo S_McPaths S_Libm S_Prob S_Normal S_Discrepancy S_GbmDouble S_QuasiDouble
  L_B64 L_Order L_Model L_Random L_MonteCarlo L_McPaths L_Quasi L_McRound L_Near L_Normal L_Accuracy L_AccDouble L_GbmDouble L_MeanDouble L_PathDouble L_QuasiDouble L_Discrepancy
  P_Quasi P_AccDouble P_PriceMean P_GbmDouble P_Discrepancy.
Import ListNotations.
Local Open Scope R_scope.

Lemma runs_fit64 : forall fexp flog env k seed dim m w d t q, (1 <= dim <= INT_MAX)%Z -> draws_per_step (mdKind m) = Some q ->
  deref (mdStock m) w = Ok d -> forall N n g, at_coord env k seed dim n g ->
  (forall i, (n <= i < n + N * (q * Z.to_nat dim))%nat -> fits (num := B64 fexp flog) env k seed dim i) ->
  exists ps g', runs (@simulatePrices b64 (B64 fexp flog) env m w t) N g = (Ok ps, g').
Proof.
  intros fexp flog env k seed dim m w d t q DIM DQ D. induction N as [|N IH]; intros n g G F; cbn [runs]; [eauto|].
  destruct (walks_simulate (num := B64 fexp flog) env k seed dim DIM (one_not_zero fexp flog) m w d t q DQ D n g G) as [(p & g1 & E & _ & G1 & _)|(g1 & i & _ & I & NF)].
  - rewrite E. destruct (IH _ g1 G1) as (ps & g2 & E2); [intros i I; apply F; lia|]. rewrite E2. eauto.
  - exfalso. apply NF, F. lia.
Qed.

(** A price within a factor exp(+-L) of a lognormal one is lognormal at a number L/v away. *)
Lemma moved_quantile : forall F v z L x, 0 < F -> 0 < v -> within L x (F * exp (v * z - v * v / 2)) ->
  let q := (ln (x / F) + v * v / 2) / v in
  0 < x /\ F * exp (v * q - v * v / 2) = x /\ Rabs (q - z) <= L / v.
Proof.
  intros F v z L x F0 V0 (W1 & W2) q. pose proof (exp_pos (v * z - v * v / 2)) as EP. pose proof (exp_pos (- L)) as LP.
  assert (Y0 : 0 < F * exp (v * z - v * v / 2)) by (now apply Rmult_lt_0_compat).
  assert (X0 : 0 < x) by (pose proof (Rmult_lt_0_compat _ _ Y0 LP); lra). split; [exact X0|].
  assert (XF : 0 < x / F) by (now apply Rdiv_lt_0_compat).
  assert (E : v * q - v * v / 2 = ln (x / F)) by (unfold q; field; lra). split; [rewrite E, exp_ln by easy; field; lra|].
  assert (A : v * z - v * v / 2 - L <= ln (x / F) <= v * z - v * v / 2 + L).
  { rewrite <- E. assert (Q : F * exp (v * q - v * v / 2) = x) by (rewrite E, exp_ln by easy; field; lra). rewrite <- Q in W1, W2.
    rewrite Rmult_assoc, <- exp_plus in W1, W2. split; apply Rnot_lt_le; intros C; apply exp_increasing in C; apply (Rmult_lt_compat_l F) in C; try easy.
    - replace (v * z - v * v / 2 - L) with (v * z - v * v / 2 + - L) in C by ring. lra.
    - lra. }
  assert (B : Rabs (v * (q - z)) <= L) by (apply Rabs_le; lra). rewrite Rabs_mult, (Rabs_pos_eq v) in B by lra.
  apply (Rmult_le_reg_l v); [easy|]. replace (v * (L / v)) with L by (field; lra). exact B.
Qed.

Section Quasi64.
Variables (fexp flog : b64 -> b64) (env : Env b64) (la : LinAlg b64) (P : Pricer b64) (W : World b64) (w wm : Market b64) (k : QKind) (seed N : Z)
  (d : StockData b64) (D V : R).
Let o := pcOption P.
Let T := val (optT o).
Let r := val (getR wm).
Let c := val (yield d).
Let s := val (sigma_ d).
Let h := step_size r c s T 50.
Let F := val (S_ d) * exp ((r - c) * T).
Let v := s * sqrt T.
Hypothesis AE : accurate_exp fexp.
Hypothesis AL : accurate_log flog.
Hypothesis KM : mdKind (moModel (pcModel P)) = MGBM.
Hypothesis DM : deref (mdStock (moModel (pcModel P))) wm = Ok d.
Hypothesis OR : ordinary (S_ d) (getR wm) (yield d) (sigma_ d) (optT o) 1.
Hypothesis S0 : 0 < s.
Hypothesis H0 : h <= 90.
Hypothesis P0 : exp (- 100) <= val (S_ d) <= exp 100.
Hypothesis OS : ordinary_strikes (optPayoff o).
Hypothesis PV : payoff_variation (payoff_of (optPayoff o)) V.
Hypothesis IN : Forall (fun u => finite u /\ 0 < val u < 1) (numbers64 env k seed N).

(** One path. *)
Definition price64 (z : b64) : b64 := b64_mul (S_ d) (fexp (exponent64 (getR wm) (yield d) (sigma_ d) (optT o) z 1)).
Lemma path64 : forall z, finite z -> Rabs (val z) <= 50 ->
  finite (price64 z) /\ val (price64 z) <= exp 200 /\ within (12/10000000000000000 * (1 + h)) (val (price64 z)) (F * exp (v * val z - v * v / 2)).
Proof.
  intros z FZ ZB. destruct OR as (FS & FR & FC & FG & FT & B0 & Br & Bc & Bs & Bt).
  assert (T1 : T / 1 = T) by (unfold T; field). fold T in Bt. rewrite T1 in Bt.
  pose proof (exponent_rel (getR wm) (yield d) (sigma_ d) (optT o) z 1 FR FC FG FT FZ ltac:(lia) Br Bc Bs ltac:(fold T; rewrite T1; lra) ltac:(lra)) as R.
  unfold exponent in R. fold T r c s in R. rewrite T1 in R.
  set (x := (r - c - s * s / 2) * T + s * sqrt T * val z) in *. set (hz := step_size r c s T (val z)) in *.
  assert (ST : 0 <= sqrt T) by apply sqrt_pos.
  assert (HZ : 0 <= hz <= h).
  { pose proof (Rabs_pos r). pose proof (Rabs_pos c). assert (0 <= s * s) by (apply Rmult_le_pos; lra). assert (0 <= s * sqrt T) by (apply Rmult_le_pos; lra).
    assert (0 <= (Rabs r + Rabs c + s * s / 2) * T) by (apply Rmult_le_pos; lra). unfold hz, h, step_size. rewrite (Rabs_pos_eq 50) by lra.
    assert (0 <= s * sqrt T * Rabs (val z) <= s * sqrt T * 50) by (split; [apply Rmult_le_pos; try lra; apply Rabs_pos|apply Rmult_le_compat_l; lra]). lra. }
  assert (XB : Rabs x <= hz) by (destruct R as (_ & XB & _); exact XB). apply Rabs_le_inv in XB.
  assert (M1 : ordinary_price (val (S_ d) * exp x)).
  { split.
    - apply Rle_trans with (exp (- 100) * exp (- 100)); [rewrite <- exp_plus; apply exp_mono; lra|]. apply Rmult_le_compat; try (left; apply exp_pos); [lra|apply exp_mono; lra].
    - apply Rle_trans with (exp 100 * exp 100); [|rewrite <- exp_plus; apply exp_mono; lra]. pose proof (exp_pos (- 100)). apply Rmult_le_compat; try (left; apply exp_pos); try lra. apply exp_mono; lra. }
  assert (W0 : within 0 (val (S_ d)) (val (S_ d))). { unfold within. replace (- 0) with 0 by ring. rewrite exp_0. lra. }
  destruct (step_within fexp (S_ d) _ (val (S_ d)) x hz 0 AE FS W0 ltac:(lra) B0 M1 R ltac:(lra)) as [FP WP]. fold (price64 z) in FP, WP.
  assert (EX : val (S_ d) * exp x = F * exp (v * val z - v * v / 2)).
  { unfold F, v, x. rewrite (Rmult_assoc (val (S_ d)) (exp ((r - c) * T))), <- exp_plus. do 2 f_equal.
    replace (s * sqrt T * (s * sqrt T) / 2) with (s * s / 2 * (sqrt T * sqrt T)) by field. rewrite sqrt_sqrt by lra. ring. }
  rewrite Rplus_0_l in WP.
  assert (WW : within (12/10000000000000000 * (1 + h)) (val (price64 z)) (val (S_ d) * exp x)).
  { destruct WP as (A & B). destruct M1 as (M1 & _). pose proof (exp_pos (- 200)). set (y := val (S_ d) * exp x) in *.
    pose proof (exp_mono (12/10000000000000000 * (1 + hz)) (12/10000000000000000 * (1 + h)) ltac:(lra)) as U.
    pose proof (exp_mono (- (12/10000000000000000 * (1 + h))) (- (12/10000000000000000 * (1 + hz))) ltac:(lra)) as U'.
    split; [eapply Rle_trans; [|exact A]|eapply Rle_trans; [exact B|]]; apply Rmult_le_compat_l; lra. }
  split; [exact FP|]. split; [|now rewrite <- EX].
  destruct WW as (_ & WU). eapply Rle_trans; [exact WU|]. assert (exp (12/10000000000000000 * (1 + h)) <= 2).
  { apply Rle_trans with (exp (1/2)); [apply exp_mono; lra|]. assert (EE : exp (1/2) * exp (1/2) = exp 1) by (rewrite <- exp_plus; f_equal; lra). pose proof exp_le_3. pose proof (exp_pos (1/2)). nra. }
  assert (M3 : val (S_ d) * exp x <= exp 190).
  { apply Rle_trans with (exp 100 * exp 90); [|rewrite <- exp_plus; apply exp_mono; lra]. pose proof (exp_pos (- 100)). apply Rmult_le_compat; try (left; apply exp_pos); try lra. apply exp_mono; lra. }
  replace 200 with (190 + 10) by lra. rewrite exp_plus. pose proof (exp_ineq1_le 10). pose proof (exp_pos 190). destruct M1 as (M1 & _). pose proof (exp_pos (- 200)).
  apply Rmult_le_compat; try lra. left. apply exp_pos.
Qed.

(** The numbers, their quantiles and the runs. *)
Definition quantile64 (j : nat) : b64 := normal_of (num := B64 fexp flog) (uniform (num := B64 fexp flog) env k seed 1 j).
Lemma quantile64_ok : forall j, (j < Z.to_nat N)%nat ->
  fits (num := B64 fexp flog) env k seed 1 j /\ finite (quantile64 j) /\ Rabs (val (quantile64 j)) <= 50 /\
  Rabs (Phi (val (quantile64 j)) - val (number64 env k seed j)) <= 5/10000000000.
Proof.
  intros j J. rewrite Forall_forall in IN. destruct (IN (number64 env k seed j)) as (FU & UB').
  { unfold numbers64. apply in_map. apply in_seq. lia. }
  assert (E : uniform (num := B64 fexp flog) env k seed 1 j = number64 env k seed j).
  { unfold uniform, coordinate, number64. rewrite Nat.div_1_r, Nat.mod_1_r. reflexivity. }
  destruct (C126_accuracy fexp flog AL _ FU UB') as (x & X & FX & A). unfold quantile64, fits, normal_of. fold (uniform (num := B64 fexp flog) env k seed 1 j). rewrite E, X.
  split; [now exists x|]. split; [exact FX|]. split; [exact (inv64_bounded fexp flog _ x AL FU UB' X)|exact A].
Qed.
Lemma runs64 : exists g', runs (@simulatePrices b64 (B64 fexp flog) env (moModel (pcModel P)) wm (optT o)) (Z.to_nat N) (Quasi_ctor env k 1 seed) =
  (Ok (map (fun j => [price64 (quantile64 j)]) (seq 0 (Z.to_nat N))), g').
Proof.
  assert (DIM : (1 <= 1 <= INT_MAX)%Z) by (unfold INT_MAX; lia). assert (G0 := ctor_at env k seed 1 ltac:(lia)).
  destruct (runs_fit64 fexp flog env k seed 1 (moModel (pcModel P)) wm d (optT o) 1 DIM ltac:(now rewrite KM) DM (Z.to_nat N) 0%nat _ G0) as (ps & g' & RR).
  { intros i I. apply quantile64_ok. lia. }
  exists g'. rewrite RR. apply (read_runs (num := B64 fexp flog) env k seed 1 DIM (one_not_zero fexp flog) (moModel (pcModel P)) wm d (optT o) 1 ltac:(now rewrite KM) DM (Z.to_nat N) _ _ _ 0%nat G0) in RR.
  rewrite RR. do 2 f_equal. apply map_ext. intros j. rewrite KM. unfold path_of. change (Z.to_nat 1) with 1%nat. cbn [seq fold_left gbm_step snd app].
  cbn [Nat.add Nat.mul]. rewrite !Nat.add_0_r, Nat.mul_1_r. reflexivity.
Qed.
End Quasi64.

(** ** C128.  European puts, digital and double digital options priced in binary64 on a one-dimensional
    sequence are as close to the Black-Scholes price as the numbers are to evenly spread:
    V is the variation of the payoff, D the discrepancy of the numbers; then come the accuracy of the
    quantile function, the rounding errors of the path and those of the payoffs, the mean and the
    discount factor. *)
Theorem C128_black_scholes : forall fexp flog env la P W w wm k seed N d D V,
  accurate_exp fexp -> accurate_log flog -> lives_in P W w wm (Quasi_ctor env k 1 seed) -> (1 <= N <= INT_MAX)%Z ->
  pcClass P = CSinglePath -> accepts (pcClass P) (optKind (pcOption P)) = true ->
  mdKind (moModel (pcModel P)) = MGBM -> deref (mdStock (moModel (pcModel P))) wm = Ok d ->
  let o := pcOption P in
  let T := val (optT o) in let r := val (getR wm) in let c := val (yield d) in let s := val (sigma_ d) in
  let h := step_size r c s T 50 in
  ordinary (S_ d) (getR wm) (yield d) (sigma_ d) (optT o) 1 -> 0 < s -> h <= 90 -> exp (- 100) <= val (S_ d) <= exp 100 ->
  finite (getR w) -> Rabs (val (getR w) * T) <= 190 ->
  ordinary_strikes (optPayoff o) -> payoff_variation (payoff_of (optPayoff o)) V ->
  Forall (fun u => finite u /\ 0 < val u < 1) (numbers64 env k seed N) -> discrepancy_at_most (map val (numbers64 env k seed N)) D ->
  let df := exp (- val (getR w) * T) in
  let F := val (S_ d) * exp ((r - c) * T) in
  exists v, fst (@calculatePrice b64 (B64 fexp flog) env la P W N) = Ok v /\ finite v /\
    Rabs (val v - df * lognormal_payoff (payoff_of (optPayoff o)) F (s * sqrt T)) <=
      df * V * (D + 5/10000000000 + 48/100000000000000000 * (1 + h) / (s * sqrt T) + 25/100000000000000000 * (IZR N + Rabs (val (getR w) * T) + 8)).
Proof.
  intros fexp flog env la P W w wm k seed N d D V AE AL LI LN CP A KM DM o T r c s h OR S0 H0 P0 FR RB OS PV IN DISC df F.
  destruct (runs64 fexp flog env P wm k seed N d AL KM DM IN) as (g' & RR).
  pose proof (quantile64_ok fexp flog env k seed N AL IN) as QO.
  pose proof (path64 fexp P wm d AE OR S0 H0 P0) as PO. fold o T r c s h F in PO, RR.
  set (pr := fun j => price64 fexp P wm d (quantile64 fexp flog env k seed j)) in *.
  set (js := seq 0 (Z.to_nat N)) in *.
  assert (JS : forall j, In j js -> (j < Z.to_nat N)%nat) by (intros j J; apply in_seq in J; lia).
  assert (NE : js <> []) by (unfold js; destruct (Z.to_nat N) eqn:E; [lia|discriminate]).
  assert (BT : 0 < T) by (destruct OR as (_ & _ & _ & _ & _ & _ & _ & _ & _ & Bt); fold o T in Bt; lra).
  set (v := s * sqrt T) in *. assert (V0 : 0 < v) by (apply Rmult_lt_0_compat; [easy|now apply sqrt_lt_R0]).
  assert (F0 : 0 < F) by (apply Rmult_lt_0_compat; [pose proof (exp_pos (- 100)); lra|apply exp_pos]).
  set (L := 12/10000000000000000 * (1 + h)) in *.
  (* the mean of the payoffs at the computed prices *)
  set (q := fun j => (ln (val (pr j) / F) + v * v / 2) / v).
  assert (MQ : forall j, In j js -> 0 < val (pr j) <= exp 200 /\ finite (pr j) /\ F * exp (v * q j - v * v / 2) = val (pr j) /\
    Rabs (Phi (q j) - val (number64 env k seed j)) <= 5/10000000000 + 2/5 * (L / v)).
  { intros j J. destruct (QO j (JS j J)) as (_ & FZ & ZB & AC). destruct (PO _ FZ ZB) as (FP & UP & WP).
    destruct (moved_quantile F v _ L _ F0 V0 WP) as (X0 & XE & XQ). fold (pr j) in *. fold (q j) in XE, XQ.
    split; [lra|]. split; [exact FP|]. split; [exact XE|]. apply Phi_close in XQ. apply Rabs_le_inv in XQ. apply Rabs_le_inv in AC. apply Rabs_le. lra. }
  assert (PS : positive_strikes (payoff_of (optPayoff o))).
  { pose proof (exp_pos (- 200)). unfold ordinary_strikes, ordinary_price in OS. destruct (optPayoff o); cbn; lra || easy. }
  pose proof (spread_prices js (fun j => val (number64 env k seed j)) q D (5/10000000000 + 2/5 * (L / v)) F v NE ltac:(intros j J; now apply MQ)
    ltac:(unfold js; unfold numbers64 in DISC; rewrite map_map in DISC; exact DISC) F0 V0 _ V PS PV) as B. rewrite map_map in B.
  assert (EM : Rmean (map (fun j => terminal (payoff_of (optPayoff o)) (price_at q F v j)) js) = Rmean (map (fun j => terminal (payoff_of (optPayoff o)) (val (pr j))) js)).
  { apply Rmean_ext. intros j J. unfold price_at. destruct (MQ j J) as (_ & _ & -> & _). reflexivity. }
  rewrite EM in B. clear EM.
  (* the computed payoffs *)
  assert (X : exists vs, omap (path_payoff (num := B64 fexp flog) (pcClass P) o) (map (fun j => [pr j]) js) = Ok vs /\
    Forall2 (inexact (26/100000000000000000)) vs (map (fun j => (terminal (payoff_of (optPayoff o)) (val (pr j)), V)) js)).
  { rewrite CP. assert (MQ' : forall j, In j js -> 0 < val (pr j) <= exp 200 /\ finite (pr j)) by (intros j J; destruct (MQ j J) as (Q1 & Q2 & _); auto).
    clear - MQ' OS PV. induction js as [|j l IH]; [exists []; split; [reflexivity|constructor]|].
    destruct IH as (vs & E & FV); [intros i I; apply MQ'; now right|]. destruct (MQ' j (or_introl eq_refl)) as (XB & FX).
    destruct (terminal_inexact fexp flog (optPayoff o) (pr j) V FX XB OS PV) as (y & EY & IY).
    exists (y :: vs). cbn [map omap path_payoff]. unfold option_payoff1, final. cbn [last]. rewrite EY. cbn [bind]. rewrite E. split; [reflexivity|]. now constructor. }
  destruct X as (vs & OM & FV).
  pose proof (paths_price (num := B64 fexp flog) env la P W w wm _ N _ vs g' LI ltac:(rewrite CP; discriminate) A
    ltac:(intros ? Q; rewrite CP in Q; discriminate) ltac:(cbn; lia) ltac:(lia) RR OM) as E.
  eexists. split; [exact E|]. clear E. unfold price_of, discount_factor.
  assert (FT : finite (optT o)) by apply OR.
  destruct (discount64 fexp (getR w) (optT o) AE FR FT RB) as (FD & DB & DE). fold T df in DB, DE. cbv zeta in DE. fold T in DE.
  set (delta := 102/100 * (1001/1000000000000000000 + (101/100 * u0 * Rabs (val (getR w) * T) + e0))) in *.
  pose proof (Rabs_pos (val (getR w) * T)) as R0.
  assert (LV : length vs = Z.to_nat N).
  { rewrite <- (seq_length (Z.to_nat N) 0). fold js. rewrite <- (map_length (fun j => (terminal (payoff_of (optPayoff o)) (val (pr j)), V)) js). clear - FV. induction FV; cbn; congruence. }
  destruct (mean_inexact N _ df delta (26/100000000000000000) vs _ ltac:(unfold INT_MAX in LN; lia) LV FV ltac:(lra) ltac:(unfold delta, u0, e0; lra) FD DB DE) as [FIN BM].
  split; [exact FIN|]. rewrite !map_map in BM. cbn [fst snd] in BM.
  assert (MV : Rmean (map (fun _ : nat => V) js) = V) by (now apply Rmean_const). rewrite MV in BM.
  match type of BM with Rabs (?a - _) <= _ => set (pv := a) in * end.
  change (Rabs (pv - df * lognormal_payoff (payoff_of (optPayoff o)) F v) <= df * V * (D + 5/10000000000 + 48/100000000000000000 * (1 + h) / v + 25/100000000000000000 * (IZR N + Rabs (val (getR w) * T) + 8))).
  set (m := Rmean (map (fun j => terminal (payoff_of (optPayoff o)) (val (pr j))) js)) in *. set (bs := lognormal_payoff (payoff_of (optPayoff o)) F v) in *.
  assert (D0 : 0 < df) by apply exp_pos.
  assert (VP : 0 <= V). { pose proof (exp_pos (- 200)). unfold ordinary_strikes, ordinary_price in OS. destruct (optPayoff o) as [[]|[]| |]; cbn in PV; try easy; lra. }
  assert (DV : 0 <= df * V) by (apply Rmult_le_pos; lra).
  replace (pv - df * bs) with ((pv - df * m) + df * (m - bs)) by ring. eapply Rle_trans; [apply Rabs_triang|]. rewrite (Rabs_mult df), (Rabs_pos_eq df) by lra.
  assert (B2 : df * Rabs (m - bs) <= df * (V * (D + (5/10000000000 + 2/5 * (L / v))))) by (apply Rmult_le_compat_l; lra).
  assert (LE : 2/5 * (L / v) = 48/100000000000000000 * (1 + h) / v) by (unfold L; field; lra). rewrite LE in B2.
  eapply Rle_trans; [apply Rplus_le_compat; [exact BM|exact B2]|]. set (y := 48/100000000000000000 * (1 + h) / v) in *.
  replace (df * (V * (D + (5 / 10000000000 + y)))) with (df * V * (D + 5/10000000000 + y)) by ring. rewrite <- Rmult_plus_distr_r, (Rmult_comm _ (df * V)) || idtac.
  rewrite plus_IZR. assert (N1 : 1 <= IZR N) by (apply IZR_le; lia).
  assert (C : 102/100 * (26/100000000000000000) + 102/100 * delta + 23/100000000000000000 * (IZR N + 2) <= 25/100000000000000000 * (IZR N + Rabs (val (getR w) * T) + 8)) by (unfold delta, u0, e0; lra).
  apply (Rmult_le_compat_r (df * V)) in C; [|exact DV]. lra.
Qed.
Print Assumptions C128_black_scholes.

(** *** Instance: N = 2^p points (2 j + 1) / (2 N), computed without rounding. *)
Definition midpoints (N : Z) : Env b64 :=
  mkEnv (fun _ _ => b64_ofZ 0) (fun _ _ => 0%Z) (fun _ _ _ j _ => b64_ofZ (2 * Z.of_nat j + 1)) (fun _ => b64_ofZ (2 * N)).
Lemma midpoint : forall p j k seed, (p <= 20)%nat -> (j < Z.to_nat (2 ^ Z.of_nat p))%nat ->
  finite (number64 (midpoints (2 ^ Z.of_nat p)) k seed j) /\
  val (number64 (midpoints (2 ^ Z.of_nat p)) k seed j) = (2 * INR j + 1) / (2 * IZR (2 ^ Z.of_nat p)).
Proof.
  intros p j k seed P J. unfold number64, midpoints. cbn [e_point e_max].
  assert (PB : (1 <= 2 ^ Z.of_nat p <= 2 ^ 20)%Z) by (split; [apply (Z.pow_le_mono_r 2 0)|apply Z.pow_le_mono_r]; lia).
  change (2 ^ 20)%Z with 1048576%Z in PB. set (n := (2 ^ Z.of_nat p)%Z) in *.
  destruct (ofZ_fmt (2 * Z.of_nat j + 1) ltac:(lia)) as [FA VA]. destruct (ofZ_fmt (2 * n) ltac:(lia)) as [FB VB].
  assert (N1 : 1 <= IZR n) by (apply IZR_le; lia).
  assert (VJ : IZR (2 * Z.of_nat j + 1) = 2 * INR j + 1) by (rewrite plus_IZR, mult_IZR, <- INR_IZR_INZ; reflexivity).
  destruct (val_div _ _ FA FB ltac:(rewrite VB, mult_IZR; lra)) as [NN V]. rewrite VA, VB in V.
  assert (G : IZR (2 * Z.of_nat j + 1) / IZR (2 * n) = IZR (2 * Z.of_nat j + 1) * bpow radix2 (- (Z.of_nat p + 1))).
  { unfold Rdiv. f_equal. rewrite bpow_opp. f_equal. replace (2 * n)%Z with (2 ^ (Z.of_nat p + 1))%Z by (unfold n; rewrite Z.pow_add_r by lia; lia).
    rewrite <- (IZR_Zpower radix2) by lia. reflexivity. }
  assert (RG : rnd (IZR (2 * Z.of_nat j + 1) / IZR (2 * n)) = IZR (2 * Z.of_nat j + 1) / IZR (2 * n)).
  { rewrite G. apply fmt_scaled; lia. }
  assert (U : 0 < IZR (2 * Z.of_nat j + 1) / IZR (2 * n) < 1).
  { assert (0 < IZR (2 * Z.of_nat j + 1)) by (apply IZR_lt; lia). assert (0 < IZR (2 * n)) by (apply IZR_lt; lia). assert (IZR (2 * Z.of_nat j + 1) < IZR (2 * n)) by (apply IZR_lt; lia).
    split; [now apply Rdiv_lt_0_compat|]. apply (Rmult_lt_reg_r (IZR (2 * n))); [easy|]. unfold Rdiv. rewrite Rmult_assoc, Rinv_l by lra. lra. }
  pose proof big_INF. unfold fl in V. rewrite RG, clamp_id in V by lra. split; [apply finite_of_val; [easy|rewrite V; lra]|]. rewrite V, VJ, mult_IZR. reflexivity.
Qed.

(** A put struck at 110 on a stock at 100, rate and volatility 1/2, one year: with N = 2^p points,
    p up to 20, the computed price is within 55/N + 1e-7 of the Black-Scholes price. *)
Definition qworld (N : Z) : World b64 := mkWorld [hmarket] [Quasi_ctor (midpoints N) Sobol 1 7].
Definition hput : Pricer b64 :=
  mkPricer CSinglePath (mkOption European "AAPL" (b64_ofZ 1) (PVanilla Put (b64_ofZ 110)) None 0) (Some 0%nat) (mkModelObj (mkModel "AAPL" 0 MGBM) 0 0) None None.
Example C128_ex : accurate_exp rounded_exp /\ accurate_log rounded_log /\ forall p, (p <= 20)%nat -> let N := (2 ^ Z.of_nat p)%Z in
  exists v, fst (@calculatePrice b64 (B64 rounded_exp rounded_log) (midpoints N) (mkLinAlg (fun _ y => y) (fun _ y => y)) hput (qworld N) N) = Ok v /\ finite v /\
    Rabs (val v - exp (- (1/2)) * black_put (100 * exp (1/2)) 110 (1/2)) <= 55 / IZR N + 1/10000000.
Proof.
  split; [exact rounded_exp_ok|]. split; [exact rounded_log_ok|]. intros p P N. destruct half_val as [FH VH]. fold half64 in FH, VH.
  destruct (ofZ_fmt 1 ltac:(lia)) as [F1 V1]. destruct (ofZ_fmt 100 ltac:(lia)) as [F2 V2]. destruct (ofZ_fmt 110 ltac:(lia)) as [F3 V3]. destruct (ofZ_fmt 0 ltac:(lia)) as [F0 V0].
  assert (PB : (1 <= N <= 1048576)%Z). { change 1048576%Z with (2 ^ 20)%Z. split; [apply (Z.pow_le_mono_r 2 0)|apply Z.pow_le_mono_r]; lia. }
  assert (NB : 1 <= IZR N <= 1048576) by (split; apply IZR_le; lia).
  assert (OP : forall x, 100 <= x <= 110 -> exp (- 100) <= x <= exp 100 /\ ordinary_price x).
  { intros x X. pose proof (exp_ineq1_le 55). assert (exp 100 = exp 45 * exp 55) by (rewrite <- exp_plus; f_equal; lra). pose proof (exp_ineq1_le 45).
    assert (A : exp (- 100) <= x <= exp 100). { split; [apply Rle_trans with (exp 0); [apply exp_mono; lra|rewrite exp_0; lra]|nra]. }
    split; [exact A|]. pose proof (exp_mono (- 200) (- 100) ltac:(lra)). pose proof (exp_mono 100 200 ltac:(lra)). unfold ordinary_price. lra. }
  assert (SZ : step_size (val half64) (val (b64_ofZ 0)) (val half64) (val (b64_ofZ 1)) 50 = 5/8 + 25).
  { unfold step_size. rewrite V0, V1, VH, Rabs_R0, !Rabs_pos_eq, sqrt_1 by lra. field. }
  destruct (P_Discrepancy.mid_spread Sobol 7 N ltac:(lia)) as (MI & MD). rewrite P_Discrepancy.mid_used in MI, MD.
  assert (NU : map val (numbers64 (midpoints N) Sobol 7 N) = map (fun j => (2 * INR j + 1) / (2 * IZR N)) (seq 0 (Z.to_nat N))).
  { unfold numbers64. rewrite map_map. apply map_ext_in. intros j J. apply in_seq in J. apply (midpoint p j Sobol 7 P). fold N. lia. }
  destruct (C128_black_scholes rounded_exp rounded_log (midpoints N) (mkLinAlg (fun _ y => y) (fun _ y => y)) hput (qworld N) hmarket hmarket Sobol 7 N
    (mkStock (b64_ofZ 100) half64 None) (1 / (2 * IZR N)) 110 rounded_exp_ok rounded_log_ok) as (v & E & FV & B).
  - repeat split.
  - unfold INT_MAX. lia.
  - reflexivity.
  - reflexivity.
  - reflexivity.
  - reflexivity.
  - cbn [hput pcOption optT S_ sigma_ hmarket getR mR yield c_]. destruct (OP 100 ltac:(lra)) as (_ & Q & Q').
    repeat split; try assumption; rewrite ?V0, ?V1, ?V2, ?VH; try assumption; try (rewrite ?Rabs_R0, ?Rabs_pos_eq; lra); lra.
  - cbn [sigma_]. rewrite VH. lra.
  - cbn [hput pcOption optT S_ sigma_ hmarket getR mR yield c_]. rewrite SZ. lra.
  - cbn [S_]. rewrite V2. apply OP. lra.
  - exact FH.
  - cbn [hput pcOption optT hmarket getR mR]. rewrite V1, VH, Rabs_pos_eq; lra.
  - cbn [hput pcOption optPayoff ordinary_strikes]. split; [exact F3|]. rewrite V3. apply OP. lra.
  - cbn [hput pcOption optPayoff payoff_of payoff_variation]. now rewrite V3.
  - unfold numbers64. apply Forall_map, Forall_forall. intros j J. pose proof J as J'. apply in_seq in J.
    destruct (midpoint p j Sobol 7 P ltac:(fold N; lia)) as (FM & VM). fold N in FM, VM. split; [exact FM|]. rewrite VM. apply MI. apply (in_map (fun j => (2 * INR j + 1) / (2 * IZR N))). exact J'.
  - rewrite NU. exact MD.
  - exists v. split; [exact E|]. split; [exact FV|]. revert B. cbn [hput pcOption optT S_ sigma_ hmarket getR mR yield c_ optPayoff payoff_of lognormal_payoff].
    rewrite SZ, V0, V1, V2, V3, VH. rewrite sqrt_1, (Rabs_pos_eq (1/2 * 1)) by lra.
    replace (- (1 / 2) * 1) with (- (1/2)) by lra. replace ((1 / 2 - 0) * 1) with (1/2) by lra. replace (1 / 2 * 1) with (1/2) by lra.
    intros B. eapply Rle_trans; [exact B|]. assert (X1 : exp (- (1/2)) <= 1) by (apply Rle_trans with (exp 0); [apply exp_mono; lra|rewrite exp_0; lra]). pose proof (exp_pos (- (1/2))).
    pose proof (Rinv_0_lt_compat (IZR N) ltac:(lra)) as I0.
    replace (1 / (2 * IZR N)) with (/ 2 * / IZR N) by (field; lra). replace (55 / IZR N) with (110 * (/ 2 * / IZR N)) by (field; lra).
    match goal with |- exp _ * 110 * ?y <= _ => set (t := y) in * end. assert (T0 : 0 <= t <= / 2 * / IZR N + 85/100000000000) by (unfold t; lra).
    apply Rle_trans with (1 * 110 * t); [apply Rmult_le_compat_r; lra|lra].
Qed.
