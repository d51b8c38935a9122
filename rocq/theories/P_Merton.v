(** Property C123: the expected price of a one-date option under the Merton model. *)
From Coq Require Import String List ZArith Reals Bool Lra Lia.
From Coquelicot Require Import Coquelicot.
From Flocq Require Import Core.
From Verif Require Import M_Num M_Outcome M_Dict M_Stock M_Market M_Payoff M_Option M_Random M_Model
  M_Regression M_MonteCarlo M_Builder S_Market S_Option S_Model S_Prob S_MonteCarlo S_Expect S_PriceMean S_Normal S_Merton
  L_Gauss L_Martingale L_MonteCarlo L_Expect L_Sampler L_Growth L_PriceMean L_Normal L_Lognormal L_Mixture L_Merton
  P_McRelations P_Growth P_PriceMean.
Import ListNotations.
Local Open Scope R_scope.

(** ** Lognormal prices of calls increase with the forward *)
Definition is_call (p : Payoff R) : Prop := match p with PVanilla Call _ | PDigital Call _ => True | _ => False end.

Lemma on_lognormal : forall p F v, positive_strikes p -> 0 < F -> 0 < v ->
  is_Enormal (fun z => terminal p (F * exp (- (v * v / 2) + v * z))) (lognormal_payoff p F v).
Proof.
  intros p F v P F0 V. pose proof (pay_one p (ln F - v * v / 2) v P V) as E. rewrite sqrt_square in E by lra.
  replace (ln F - v * v / 2 + v * v / 2) with (ln F) in E by ring. rewrite (exp_ln F F0) in E.
  eapply is_Enormal_ext; [|exact E]. intros z. cbn beta. f_equal.
  replace (ln F - v * v / 2 + v * z) with (ln F + (- (v * v / 2) + v * z)) by ring. now rewrite exp_plus, exp_ln.
Qed.
Lemma call_incr : forall p F1 F2 v, is_call p -> positive_strikes p -> 0 < F1 < F2 -> 0 < v ->
  lognormal_payoff p F1 v < lognormal_payoff p F2 v.
Proof.
  intros p F1 F2 v C P (F0 & LT) V. destruct p as [[] K|[] K| |]; try contradiction; cbn in P.
  - pose proof (on_lognormal (PVanilla Call K) F1 v P F0 V) as E1.
    pose proof (on_lognormal (PVanilla Call K) F2 v P ltac:(lra) V) as E2.
    pose proof (on_lognormal (PDigital Call K) F1 v P F0 V) as E3.
    assert (Q : 1 < F2 / F1). { apply (Rmult_lt_reg_r F1); [easy|]. replace (F2 / F1 * F1) with F2 by (field; lra). lra. }
    pose proof (Enormal_lin _ _ _ _ 1 ((F2 / F1 - 1) * K) E1 E3) as E4.
    assert (D : 0 < lognormal_payoff (PDigital Call K) F1 v) by (cbn; apply Phi_strict).
    assert (LE : 1 * lognormal_payoff (PVanilla Call K) F1 v + (F2 / F1 - 1) * K * lognormal_payoff (PDigital Call K) F1 v
      <= lognormal_payoff (PVanilla Call K) F2 v).
    { refine (Enormal_mono _ _ _ _ _ E4 E2). intros z. cbn. unfold vanilla. set (X := exp (- (v * v / 2) + v * z)).
      assert (X0 : 0 < X) by apply exp_pos. assert (Y0 : 0 < F1 * X) by nra.
      replace (F2 * X) with (F2 / F1 * (F1 * X)) by (field; lra). set (Y := F1 * X) in *.
      destruct (Rlt_dec K Y) as [G|G].
      - rewrite (Rmax_left (Y - K)) by lra. eapply Rle_trans; [|apply Rmax_l]. nra.
      - rewrite (Rmax_right (Y - K)) by lra. rewrite Rmult_0_r, Rmult_0_r, Rplus_0_l. apply Rmax_r. }
    assert (0 < (F2 / F1 - 1) * K * lognormal_payoff (PDigital Call K) F1 v) by (repeat apply Rmult_lt_0_compat; lra). lra.
  - cbn. apply Phi_incr. unfold black_d2, black_d1. unfold Rdiv at 1 3. apply Rplus_lt_compat_r, Rmult_lt_compat_r; [now apply Rinv_0_lt_compat|].
    apply Rplus_lt_compat_r, ln_increasing; [now apply Rdiv_lt_0_compat|]. apply Rmult_lt_compat_r; [now apply Rinv_0_lt_compat|easy].
Qed.

Lemma mixture_incr : forall p F1 F2 v2 l muJ sJ q1 q2, is_call p -> positive_strikes p -> 0 < F1 < F2 -> 0 < v2 -> 0 < l ->
  jump_mixture p F1 v2 l muJ sJ q1 -> jump_mixture p F2 v2 l muJ sJ q2 -> q1 < q2.
Proof.
  intros p F1 F2 v2 l muJ sJ q1 q2 C P LF V L H1 H2. unfold jump_mixture, is_Epoisson in *.
  pose proof (is_series_minus _ _ _ _ H2 H1) as H. change (minus q2 q1) with (q2 - q1) in H.
  assert (T : forall j, 0 < minus (exp (- l) * (l ^ j / INR (fact j)) * lognormal_payoff p (F2 * exp (INR j * (muJ + sJ * sJ / 2))) (sqrt (v2 + INR j * (sJ * sJ))))
    (exp (- l) * (l ^ j / INR (fact j)) * lognormal_payoff p (F1 * exp (INR j * (muJ + sJ * sJ / 2))) (sqrt (v2 + INR j * (sJ * sJ))))).
  { intros j. pose proof (exp_pos (INR j * (muJ + sJ * sJ / 2))) as X.
    assert (W : 0 < exp (- l) * (l ^ j / INR (fact j))).
    { apply Rmult_lt_0_compat; [apply exp_pos|]. apply Rdiv_lt_0_compat; [now apply pow_lt|apply INR_fact_lt_0]. }
    assert (J : 0 <= INR j * (sJ * sJ)) by (apply Rmult_le_pos; [apply pos_INR|nra]).
    pose proof (call_incr p (F1 * exp (INR j * (muJ + sJ * sJ / 2))) (F2 * exp (INR j * (muJ + sJ * sJ / 2))) (sqrt (v2 + INR j * (sJ * sJ)))
      C P ltac:(split; nra) ltac:(apply sqrt_lt_R0; lra)) as G.
    apply Rlt_Rminus. now apply Rmult_lt_compat_l. }
  pose proof (series_above _ _ 0 (fun i => Rlt_le _ _ (T i)) H) as A. cbn [sum_f_R0] in A. pose proof (T 0%nat) as B.
  assert (0 < q2 - q1); [|lra]. eapply Rlt_le_trans; [exact B|exact A].
Qed.

Section Setting.
Variables (la : LinAlg R) (P : Pricer R) (W : World R) (w wm : Market R) (g : Gen R) (N : Z) (d : StockData R) (lambda muJ sigmaJ : R).
Definition merton_setting : Prop :=
  wf_pricer P /\ lives_in P W w wm g /\ (1 <= N <= INT_MAX)%Z /\ gQuasi g = None /\ (1 <= getDim g <= INT_MAX)%Z /\
  mdKind (moModel (pcModel P)) = MMerton lambda muJ sigmaJ /\ deref (mdStock (moModel (pcModel P))) wm = Ok d /\
  0 < getPrice d /\ 0 < getSigma d /\ 0 < lambda /\ 0 < sigmaJ /\ 0 < optT (pcOption P) /\ positive_strikes (optPayoff (pcOption P)).

(** Full statement: the expected price is the discounted formula of Merton (1976), whose
    terms are corrected for the mean jump (merton_jump_diffusion_model.h:8-26). *)
Definition merton_claim : Prop :=
  let o := pcOption P in
  exists q, merton_1976 (optPayoff o) (forward wm d (optT o)) (getSigma d) (optT o) lambda muJ sigmaJ q /\
    is_price_mean la P W N (fun v => v) (exp (- getR w * optT o) * q).

(** ** C123.  The expected price is a Poisson mixture of Black's formula, uncorrected. *)
Theorem C123_mixture : forall k, merton_setting -> single_price k -> optKind (pcOption P) = k ->
  let o := pcOption P in
  exists q, jump_mixture (optPayoff o) (forward wm d (optT o)) (getSigma d * getSigma d * optT o) (lambda * optT o) muJ sigmaJ q /\
    is_price_mean la P W N (fun v => v) (exp (- getR w * optT o) * q).
Proof.
  intros k G SP K o. destruct G as (WF & L & LN & Q & (LD & LD') & KM & D & S0 & SG & L0 & SJ & T0 & PS). fold o in T0, PS.
  assert (NA : pcClass P <> CAmerican). { destruct WF as (A & _). intros C. rewrite C, K in A. destruct SP as [->|[->| ->]]; discriminate. }
  assert (GD : 0 < IZR (getDim g)) by (apply IZR_lt; lia).
  assert (DT : 0 < optT o / IZR (getDim g)) by (now apply Rdiv_lt_0_compat).
  assert (NN : INR (Z.to_nat (getDim g)) = IZR (getDim g)) by (rewrite INR_IZR_INZ, Z2Nat.id by lia; reflexivity).
  assert (V0 : 0 < getSigma d * getSigma d * optT o) by (repeat apply Rmult_lt_0_compat; easy).
  pose proof (merton_end d (mR wm) (optT o) (getDim g) lambda muJ sigmaJ SG DT ltac:(nra) SJ (optPayoff o) PS (Z.to_nat (getDim g)) (getPrice d) [] S0 ltac:(lia)) as E.
  rewrite NN in E.
  replace (IZR (getDim g) * (lambda * (optT o / IZR (getDim g)))) with (lambda * optT o) in E by (field; lra).
  replace (IZR (getDim g) * ((mR wm - dividend d - getSigma d * getSigma d / 2) * (optT o / IZR (getDim g))))
    with ((mR wm - dividend d - getSigma d * getSigma d / 2) * optT o) in E by (field; lra).
  replace (IZR (getDim g) * (getSigma d * sqrt (optT o / IZR (getDim g)) * (getSigma d * sqrt (optT o / IZR (getDim g)))))
    with (getSigma d * getSigma d * optT o) in E.
  2:{ replace (getSigma d * sqrt (optT o / IZR (getDim g)) * (getSigma d * sqrt (optT o / IZR (getDim g))))
        with (getSigma d * getSigma d * (sqrt (optT o / IZR (getDim g)) * sqrt (optT o / IZR (getDim g)))) by ring. rewrite sqrt_sqrt by lra. field. lra. }
  eexists. split.
  2:{ apply (C94_unbiased la P W w wm g N _ WF NA L LN Q LD).
      apply (mean_iff (getDim g) _ (path_sampler (moModel (pcModel P)) wm (optT o) (getDim g))); [apply r_simulate|easy|easy|].
      unfold path_sampler. rewrite D. cbn [pbind]. rewrite KM. cbn [kind_sampler]. unfold merton_sampler. apply E_new; [apply ctor_std|].
      apply E_new; [cbn [Distr_ctor]; now rewrite ctor_gt by nra|]. apply E_new; [cbn [Distr_ctor]; now rewrite (ctor_gt _ SJ)|].
      unfold pfor_int. destruct (Z.leb_spec (getDim g) INT_MAX); [|lia].
      apply (E_map _ snd). eapply E_ext; [|exact E]. intros st. cbn.
      unfold path_value. fold o. fold o in K. rewrite K. destruct SP as [->|[->| ->]]; reflexivity. }
  pose proof (mix_ok muJ sigmaJ (lambda * optT o) (pay_value (optPayoff o)) (ln (getPrice d) + (mR wm - dividend d - getSigma d * getSigma d / 2) * optT o)
    (getSigma d * getSigma d * optT o) ltac:(nra) (pay_tame _ PS) ltac:(lra)) as M.
  unfold jump_mixture, is_Epoisson in *. eapply is_series_ext; [|exact M]. intros j. cbn beta. f_equal.
  assert (J : 0 <= INR j * (sigmaJ * sigmaJ)) by (apply Rmult_le_pos; [apply pos_INR|nra]).
  unfold jumped, pay_value. destruct (Req_EM_T _ 0) as [Z|_]; [lra|]. f_equal. unfold forward, getR.
  rewrite <- (exp_ln (getPrice d) S0) at 2. rewrite <- !exp_plus. f_equal. field.
Qed.

(** For a call, vanilla or digital, the full statement holds only when the mean jump is
    zero. *)
Theorem C123_partial : forall k, merton_setting -> single_price k -> optKind (pcOption P) = k -> is_call (optPayoff (pcOption P)) ->
  (merton_claim <-> muJ = - (sigmaJ * sigmaJ / 2)).
Proof.
  intros k G SP K C. pose proof G as (WF & L & LN & Q & (LD & LD') & KM & D & S0 & SG & L0 & SJ & T0 & PS).
  assert (NA : pcClass P <> CAmerican). { destruct WF as (A & _). intros X. rewrite X, K in A. destruct SP as [->|[->| ->]]; discriminate. }
  destruct (C123_mixture k G SP K) as (q & M & E). unfold merton_claim. cbv zeta. set (o := pcOption P) in *. split.
  - intros (q' & M' & E'). pose proof (C94_unique la P W w wm g N (fun v => v) _ _ WF NA L LN Q LD E E') as EQ.
    apply Rmult_eq_reg_l in EQ; [subst q'|apply Rgt_not_eq, exp_pos].
    assert (F0 : 0 < forward wm d (optT o)) by (apply Rmult_lt_0_compat; [easy|apply exp_pos]).
    assert (V0 : 0 < getSigma d * getSigma d * optT o) by (repeat apply Rmult_lt_0_compat; easy).
    assert (LT : 0 < lambda * optT o) by nra. unfold merton_1976 in M'.
    set (x := lambda * jump_size muJ sigmaJ * optT o) in *. set (F := forward wm d (optT o)) in *.
    assert (XZ : x = 0).
    { destruct (Rtotal_order x 0) as [B|[B|B]]; [|easy|]; exfalso.
      - pose proof (exp_increasing 0 (- x) ltac:(lra)) as I. rewrite exp_0 in I.
        pose proof (mixture_incr _ F (F * exp (- x)) _ _ _ _ q q C PS ltac:(nra) V0 LT M M'). lra.
      - pose proof (exp_increasing (- x) 0 ltac:(lra)) as I. rewrite exp_0 in I. pose proof (exp_pos (- x)).
        pose proof (mixture_incr _ (F * exp (- x)) F _ _ _ _ q q C PS ltac:(nra) V0 LT M' M). lra. }
    unfold x in XZ. assert (JZ : jump_size muJ sigmaJ = 0) by (apply Rmult_integral in XZ as [XZ|XZ]; [|lra]; apply Rmult_integral in XZ as [XZ|XZ]; lra).
    unfold jump_size in JZ. assert (EX : exp (muJ + sigmaJ * sigmaJ / 2) = exp 0) by (rewrite exp_0; lra). apply exp_inv in EX. lra.
  - intros ->. exists q. split; [|exact E]. unfold merton_1976, jump_size.
    replace (- (sigmaJ * sigmaJ / 2) + sigmaJ * sigmaJ / 2) with 0 by ring.
    replace (- (lambda * (exp 0 - 1) * optT o)) with 0 by (rewrite exp_0; ring). rewrite exp_0, Rmult_1_r. exact M.
Qed.
End Setting.
Print Assumptions C123_mixture.
Print Assumptions C123_partial.

(** *** AAPL at 100 with one jump a year of mean size -10 per cent, one year, n dates. *)
Definition merton_on (c : PricerClass) (k : OptionKind) (p : Payoff R) (lambda muJ sigmaJ : R) : Pricer R :=
  mkPricer c (mkOption k "AAPL" 1 p None 0) (Some 0%nat) (mkModelObj (mkModel "AAPL" 0 (MMerton lambda muJ sigmaJ)) 0 0%nat) None None.
Lemma merton_on_setting : forall c k p lambda muJ sigmaJ n N, wf_pricer (merton_on c k p lambda muJ sigmaJ) -> positive_strikes p ->
  0 < lambda -> 0 < sigmaJ -> (1 <= n <= INT_MAX)%Z -> (1 <= N <= INT_MAX)%Z ->
  merton_setting (merton_on c k p lambda muJ sigmaJ) (world_at 100 n) (w_at 100) (w_at 100) (Pseudo_ctor1 n 7) N (mkStock 100 (2/10) None) lambda muJ sigmaJ.
Proof.
  intros c k p lambda muJ sigmaJ n N WF PS L SJ Ln LN. repeat (split; [solve [easy | cbn; lra]|]). exact PS.
Qed.
Lemma merton_call_wf : forall K lambda muJ sigmaJ, 0 <= K -> wf_pricer (merton_on CSinglePath European (PVanilla Call K) lambda muJ sigmaJ).
Proof. intros. exact (pricer_wf CSinglePath European Call K None 0 eq_refl ltac:(now left) H eq_refl). Qed.

Theorem C123_refuted : forall la, exists P W w wm g N d lambda muJ sigmaJ,
  merton_setting P W w wm g N d lambda muJ sigmaJ /\ optKind (pcOption P) = European /\
  ~ merton_claim la P W w wm N d lambda muJ sigmaJ.
Proof.
  intros la.
  exists (merton_on CSinglePath European (PVanilla Call 90) 1 (-1/10) (1/10)), (world_at 100 12), (w_at 100), (w_at 100), (Pseudo_ctor1 12 7), 1000%Z, (mkStock 100 (2/10) None), 1, (-1/10), (1/10).
  assert (G : merton_setting (merton_on CSinglePath European (PVanilla Call 90) 1 (-1/10) (1/10)) (world_at 100 12) (w_at 100) (w_at 100)
    (Pseudo_ctor1 12 7) 1000 (mkStock 100 (2/10) None) 1 (-1/10) (1/10)).
  { apply merton_on_setting; [apply merton_call_wf; lra|cbn; lra|lra|lra|unfold INT_MAX; lia|unfold INT_MAX; lia]. }
  split; [exact G|]. split; [reflexivity|]. intros H.
  apply (C123_partial _ _ _ _ _ _ _ _ _ _ _ European G ltac:(now left) eq_refl I) in H. lra.
Qed.
Print Assumptions C123_refuted.

Example C123_ex : forall la n N, (1 <= n <= INT_MAX)%Z -> (1 <= N <= INT_MAX)%Z ->
  exists q, jump_mixture (PVanilla Call 90) (100 * exp (5/100)) (4/100) 1 (-1/10) (1/10) q /\
  is_price_mean la (merton_on CSinglePath European (PVanilla Call 90) 1 (-1/10) (1/10)) (world_at 100 n) N (fun v => v) (exp (- (5/100) * 1) * q).
Proof.
  intros la n N Ln LN.
  destruct (C123_mixture la _ _ _ _ _ _ _ _ _ _ European (merton_on_setting CSinglePath European (PVanilla Call 90) 1 (-1/10) (1/10) n N
    (merton_call_wf 90 _ _ _ ltac:(lra)) ltac:(cbn; lra) ltac:(lra) ltac:(lra) Ln LN) ltac:(now left) eq_refl) as (q & M & E).
  exists q. split; [|exact E]. cbn [optPayoff merton_on pcOption optT] in M.
  replace (100 * exp (5/100)) with (forward (w_at 100) (mkStock 100 (2/10) None) 1); [replace (4/100) with (2/10 * (2/10) * 1) by field; rewrite <- (Rmult_1_l 1) at 3; exact M|].
  unfold forward. cbn. f_equal. f_equal. unfold dividend. cbn. lra.
Qed.
