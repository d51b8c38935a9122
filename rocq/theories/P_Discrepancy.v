(** C125: prices on quasi-random points, one date. *)
From Coq Require Import String List ZArith Bool Lia Reals Lra.
From Flocq Require Import Core.
From Coquelicot Require Import Coquelicot.
From Verif Require Import M_Num M_Outcome M_Dict M_Stock M_Market M_Payoff M_Option M_Random M_Model
  M_Regression M_MonteCarlo M_Builder S_Prob S_Normal S_Random S_Quasi S_Model S_MonteCarlo S_McPaths S_Discrepancy
  L_Model L_Random L_MonteCarlo L_McPaths L_Quasi L_Discrepancy P_MonteCarlo P_Quasi P_Accuracy P_PriceMean P_McRelations.
Import ListNotations.
Local Open Scope R_scope.

Lemma one_R : nleb (n1 : R) n0 = false.
Proof. unfold n0, n1. cbn. apply Rle_bool_false. lra. Qed.

(** Runs whose coordinates all fit give a path each. *)
Lemma runs_fit : forall (env : Env R) k seed dim m w d t q, (1 <= dim <= INT_MAX)%Z -> draws_per_step (mdKind m) = Some q ->
  deref (mdStock m) w = Ok d -> forall N n g, at_coord env k seed dim n g ->
  (forall i, (n <= i < n + N * (q * Z.to_nat dim))%nat -> fits env k seed dim i) ->
  exists ps g', runs (simulatePrices env m w t) N g = (Ok ps, g').
Proof.
  intros env k seed dim m w d t q DIM DQ D. induction N as [|N IH]; intros n g G F; cbn [runs]; [eauto|].
  destruct (walks_simulate env k seed dim DIM one_R m w d t q DQ D n g G) as [(p & g1 & E & _ & G1 & _)|(g1 & i & _ & I & NF)].
  - rewrite E. destruct (IH _ g1 G1) as (ps & g2 & E2); [intros i I; apply F; lia|]. rewrite E2. eauto.
  - exfalso. apply NF, F. lia.
Qed.

Definition q_of (u : R) : R := match snd_inv_cdf u with Ok x => x | _ => 0 end.
(** The numbers the paths are made from: the first coordinates of the points, scaled. *)
Definition numbers_used (env : Env R) k seed (N : Z) : list R := map (fun j => hd 0 (point env k seed 1 j)) (seq 0 (Z.to_nat N)).

Theorem C125_discrepancy : forall env la P W w wm k seed N d D V,
  wf_pricer P -> single_price (optKind (pcOption P)) -> lives_in P W w wm (Quasi_ctor env k 1 seed) -> (1 <= N <= INT_MAX)%Z ->
  mdKind (moModel (pcModel P)) = MGBM -> deref (mdStock (moModel (pcModel P))) wm = Ok d ->
  0 < getPrice d -> 0 < getSigma d -> 0 < optT (pcOption P) ->
  positive_strikes (optPayoff (pcOption P)) -> payoff_variation (optPayoff (pcOption P)) V ->
  (forall u, In u (numbers_used env k seed N) -> 0 < u < 1) -> discrepancy_at_most (numbers_used env k seed N) D ->
  let o := pcOption P in
  let df := exp (- getR w * optT o) in
  let F := getPrice d * exp ((getR wm - dividend d) * optT o) in
  exists v, fst (calculatePrice env la P W N) = Ok v /\
    Rabs (v - df * lognormal_payoff (optPayoff o) F (getSigma d * sqrt (optT o))) <= df * (V * (D + 5/10000000000)).
Proof.
  intros env la P W w wm k seed N d D V WF SP L LN K DD S0 SG T0 PS PV IN DISC o df F.
  assert (NA : pcClass P <> CAmerican).
  { destruct WF as (A & _). intros C. rewrite C in A. destruct SP as [E|[E|E]]; rewrite E in A; discriminate. }
  assert (DIM : (1 <= 1 <= INT_MAX)%Z) by (unfold INT_MAX; lia).
  assert (G0 := ctor_at env k seed 1 ltac:(lia)).
  assert (U : forall j, hd 0 (point env k seed 1 j) = uniform env k seed 1 j).
  { intros j. pose proof (point_nth R _ env k seed 1 j 0 ltac:(lia) ltac:(lia)) as E. rewrite Nat.mul_1_r, Nat.add_0_r in E. exact E. }
  pose proof (C41_discounted_mean env la P W w wm (Quasi_ctor env k 1 seed) N WF NA L LN ltac:(cbn; lia)) as C. cbv zeta in C. fold o in C.
  destruct (runs_fit env k seed 1 (moModel (pcModel P)) wm d (optT o) 1 DIM ltac:(now rewrite K) DD (Z.to_nat N) 0%nat _ G0) as (ps & g' & RR).
  { intros i I. unfold fits. fold (uniform env k seed 1 i). rewrite <- U.
    destruct (C124_accuracy (hd 0 (point env k seed 1 i))) as (x & X & _); [|now exists x].
    apply IN. unfold numbers_used. apply (in_map (fun j => hd 0 (point env k seed 1 j))). apply in_seq. lia. }
  rewrite RR in C. destruct C as (_ & C). rewrite C. eexists. split; [reflexivity|]. fold df.
  apply (read_runs env k seed 1 DIM one_R (moModel (pcModel P)) wm d (optT o) 1 ltac:(now rewrite K) DD (Z.to_nat N) _ _ _ 0%nat G0) in RR.
  assert (V0 : 0 < getSigma d * sqrt (optT o)) by (apply Rmult_lt_0_compat; [easy|now apply sqrt_lt_R0]).
  assert (F0 : 0 < F) by (apply Rmult_lt_0_compat; [easy|apply exp_pos]).
  assert (NE : numbers_used env k seed N <> []).
  { unfold numbers_used. destruct (Z.to_nat N) eqn:E; [lia|discriminate]. }
  assert (ACC : forall u, In u (numbers_used env k seed N) -> Rabs (Phi (q_of u) - u) <= 5/10000000000).
  { intros u I. unfold q_of. now destruct (C124_accuracy u (IN u I)) as (x & -> & Q). }
  pose proof (spread_prices (numbers_used env k seed N) (fun u => u) q_of D (5/10000000000) F (getSigma d * sqrt (optT o)) NE ACC ltac:(now rewrite map_id) F0 V0 (optPayoff o) V PS PV) as B.
  assert (E : Rmean (map (path_value o) ps) = Rmean (map (terminal (optPayoff o)) (map (price_at q_of F (getSigma d * sqrt (optT o))) (numbers_used env k seed N)))).
  { rewrite RR. unfold numbers_used. rewrite !map_map. apply Rmean_ext. intros j _. rewrite U. cbn [Nat.add].
    assert (PV' : forall path, path_value o path = terminal (optPayoff o) (last path 0)).
    { intros path. unfold path_value, o. destruct SP as [->|[->| ->]]; reflexivity. }
    rewrite PV'. f_equal. rewrite K. unfold path_of. change (Z.to_nat 1) with 1%nat. cbn [seq fold_left gbm_step snd app last].
    unfold price_at, q_of, normal_of. replace (j * (1 * 1) + (0 * 1 + 0))%nat with j by lia.
    set (z := match snd_inv_cdf (uniform env k seed 1 j) with Ok z => z | _ => _ end).
    assert (Z : (match snd_inv_cdf (uniform env k seed 1 j) with Ok z => z | _ => 0 end) = z) by reflexivity.
    unfold F. cbn [nmul nexp nadd nsub nsqrt ndiv nofZ Rnum]. rewrite Rdiv_1.
    assert (H2 : (nhalf : R) = /2). { unfold nhalf. cbn. field. }
    rewrite H2. pose proof (sqrt_sqrt (optT o) ltac:(unfold o; lra)) as SS. rewrite (Rmult_assoc (getPrice d) (exp ((getR wm - dividend d) * optT o))), <- exp_plus. f_equal. f_equal.
    change (coupon d) with (dividend d). change (mR wm) with (getR wm).
    replace (getSigma d * sqrt (optT o) * (getSigma d * sqrt (optT o)) / 2) with (/ 2 * getSigma d * getSigma d * (sqrt (optT o) * sqrt (optT o))) by field.
    rewrite SS. ring. }
  rewrite E, <- Rmult_minus_distr_l, Rabs_mult, Rabs_pos_eq by (left; apply exp_pos). apply Rmult_le_compat_l; [left; apply exp_pos|exact B].
Qed.
Print Assumptions C125_discrepancy.

(** *** Instance: the N midpoints (2 j + 1) / (2 N), whose discrepancy is 1 / (2 N). *)
Definition count_below (y : R) (n : nat) : R := Rsum (map (fun j => if Rlt_dec (2 * INR j + 1) y then 1 else 0) (seq 0 n)).
Lemma count_last : forall y n, count_below y (S n) = count_below y n + (if Rlt_dec (2 * INR n + 1) y then 1 else 0).
Proof. intros y n. unfold count_below. rewrite seq_S, map_app. cbn [map Nat.add]. apply L_Lognormal.Rsum_app1. Qed.
Lemma count_close : forall n y, (2 * INR n - 1 < y -> count_below y n = INR n) /\
  (0 <= y <= 2 * INR n -> Rabs (count_below y n - y / 2) <= 1/2).
Proof.
  induction n as [|n IH]; intros y.
  - unfold count_below. cbn. split; [easy|]. intros Y. apply Rabs_le_between. lra.
  - rewrite count_last, S_INR. destruct (IH y) as (A & B). pose proof (pos_INR n). destruct (Rlt_dec (2 * INR n + 1) y) as [L|L].
    + rewrite A by lra. split; [lra|]. intros Y. apply Rabs_le_between. lra.
    + split; [lra|]. intros Y. rewrite Rplus_0_r. destruct (Rle_dec y (2 * INR n)) as [Q|Q]; [apply B; lra|].
      rewrite A by lra. apply Rabs_le_between. lra.
Qed.
Definition mid_env (N : Z) : Env R :=
  mkEnv (fun _ _ => 0) (fun _ _ => 0%Z) (fun _ _ _ j _ => 2 * INR j + 1) (fun _ => 2 * IZR N).
Lemma mid_used : forall k seed N, numbers_used (mid_env N) k seed N = map (fun j => (2 * INR j + 1) / (2 * IZR N)) (seq 0 (Z.to_nat N)).
Proof. reflexivity. Qed.
Lemma mid_spread : forall k seed N, (1 <= N)%Z ->
  (forall u, In u (numbers_used (mid_env N) k seed N) -> 0 < u < 1) /\ discrepancy_at_most (numbers_used (mid_env N) k seed N) (1 / (2 * IZR N)).
Proof.
  intros k seed N LN. rewrite mid_used. assert (N0 : 1 <= IZR N) by (now apply IZR_le).
  assert (NN : INR (Z.to_nat N) = IZR N) by (rewrite INR_IZR_INZ, Z2Nat.id by lia; reflexivity). split.
  - intros u I. apply in_map_iff in I. destruct I as (j & <- & J). apply in_seq in J. pose proof (pos_INR j).
    assert (INR j + 1 <= IZR N) by (rewrite <- NN, <- S_INR; apply le_INR; lia).
    split; [apply Rdiv_lt_0_compat; lra|]. apply (Rmult_lt_reg_r (2 * IZR N)); [lra|]. unfold Rdiv. rewrite Rmult_assoc, Rinv_l by lra. lra.
  - intros t T. unfold share_below, Rmean. rewrite !map_map, map_length, seq_length, NN.
    replace (Rsum _) with (count_below (2 * IZR N * t) (Z.to_nat N)).
    + destruct (count_close (Z.to_nat N) (2 * IZR N * t)) as (_ & B). rewrite NN in B. specialize (B ltac:(nra)).
      replace (count_below (2 * IZR N * t) (Z.to_nat N) / IZR N - t) with ((count_below (2 * IZR N * t) (Z.to_nat N) - 2 * IZR N * t / 2) / IZR N) by (field; lra).
      unfold Rdiv at 1. rewrite Rabs_mult, (Rabs_pos_eq (/ IZR N)) by (left; apply Rinv_0_lt_compat; lra).
      replace (1 / (2 * IZR N)) with (1 / 2 * / IZR N) by (field; lra). apply Rmult_le_compat_r; [left; apply Rinv_0_lt_compat; lra|exact B].
    + unfold count_below. f_equal. apply map_ext. intros j.
      assert (E : (2 * INR j + 1) / (2 * IZR N) < t <-> 2 * INR j + 1 < 2 * IZR N * t).
      { split; intros H.
        - apply (Rmult_lt_compat_r (2 * IZR N)) in H; [|lra]. unfold Rdiv in H. rewrite Rmult_assoc, Rinv_l in H by lra. lra.
        - apply (Rmult_lt_reg_r (2 * IZR N)); [lra|]. unfold Rdiv. rewrite Rmult_assoc, Rinv_l by lra. lra. }
      destruct (Rlt_dec (2 * INR j + 1) (2 * IZR N * t)), (Rlt_dec ((2 * INR j + 1) / (2 * IZR N)) t); tauto.
Qed.

(** A put struck at 110 on a stock at 100: within 55/N + 5.5e-8 of the Black-Scholes price. *)
Definition quasi_world (env : Env R) : World R := mkWorld [w_at 100] [Quasi_ctor env Sobol 1 7].
Example C125_ex : forall la N, (1 <= N <= INT_MAX)%Z ->
  exists v, fst (calculatePrice (mid_env N) la (pricer_on CSinglePath European (PVanilla Put 110) None 0) (quasi_world (mid_env N)) N) = Ok v /\
    Rabs (v - exp (- (5/100) * 1) * black_put (100 * exp ((5/100 - 0) * 1)) 110 (2/10 * sqrt 1)) <= 55 / IZR N + 55/1000000000.
Proof.
  intros la N LN. destruct (mid_spread Sobol 7 N ltac:(lia)) as (IN & DI).
  destruct (C125_discrepancy (mid_env N) la (pricer_on CSinglePath European (PVanilla Put 110) None 0) (quasi_world (mid_env N)) (w_at 100) (w_at 100)
    Sobol 7 N (mkStock 100 (2/10) None) (1 / (2 * IZR N)) 110) as (v & E & B);
    [solve [pwf]|now left|easy|exact LN|reflexivity|reflexivity|cbn; lra|cbn; lra|cbn; lra|cbn; lra|reflexivity|exact IN|exact DI|].
  exists v. split; [exact E|]. eapply Rle_trans; [exact B|].
  change (exp (- getR (w_at 100) * optT (pcOption (pricer_on CSinglePath European (PVanilla Put 110) None 0)))) with (exp (- (5/100) * 1)).
  assert (N0 : 1 <= IZR N) by (apply IZR_le; lia). pose proof (Rinv_0_lt_compat (IZR N) ltac:(lra)) as I0.
  assert (X : exp (- (5/100) * 1) <= 1) by (pose proof (exp_increasing (- (5/100) * 1) 0 ltac:(lra)) as X; rewrite exp_0 in X; lra). pose proof (exp_pos (- (5/100) * 1)).
  replace (1 / (2 * IZR N)) with (/ 2 * / IZR N) by (field; lra).
  apply (Rle_trans _ (1 * (110 * (/ 2 * / IZR N + 5/10000000000)))); [apply Rmult_le_compat_r; lra|]. unfold Rdiv. lra.
Qed.
