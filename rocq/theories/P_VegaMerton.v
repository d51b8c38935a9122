(** Property C134 under the Merton model. *)
From Coq Require Import String List ZArith Reals Bool Lra Lia.
From Coquelicot Require Import Coquelicot.
From Flocq Require Import Core.
From Verif Require Import M_Num M_Outcome M_Dict M_Stock M_Market M_Payoff M_Option M_Random M_Model
  M_Regression M_MonteCarlo M_Builder S_Market S_Option S_Model S_Prob S_MonteCarlo S_Expect S_PriceMean S_Normal S_Merton
  L_Gauss L_Martingale L_MonteCarlo L_Expect L_Sampler L_Growth L_PriceMean L_Normal L_Lognormal L_Mixture L_Merton
  P_McRelations P_Growth P_PriceMean P_Merton P_Vega.
Import ListNotations.
Local Open Scope R_scope.

(** A mixture of formulas that each rise with the volatility rises with it. *)
Lemma mixture_vega : forall ty K F v1 v2 l muJ sJ q1 q2, ty = Call \/ ty = Put -> 0 < K -> 0 < F -> 0 < v1 < v2 -> 0 < l ->
  jump_mixture (PVanilla ty K) F v1 l muJ sJ q1 -> jump_mixture (PVanilla ty K) F v2 l muJ sJ q2 -> q1 < q2.
Proof.
  intros ty K F v1 v2 l muJ sJ q1 q2 TY HK HF V L H1 H2. unfold jump_mixture, is_Epoisson in *.
  pose proof (is_series_minus _ _ _ _ H2 H1) as H. change (minus q2 q1) with (q2 - q1) in H.
  match type of H with is_series ?f _ => assert (T : forall j, 0 < f j) end.
  { intros j. set (Fj := F * exp (INR j * (muJ + sJ * sJ / 2))).
    assert (HFj : 0 < Fj) by (apply Rmult_lt_0_compat; [easy|apply exp_pos]).
    assert (W : 0 < exp (- l) * (l ^ j / INR (fact j))).
    { apply Rmult_lt_0_compat; [apply exp_pos|]. apply Rdiv_lt_0_compat; [now apply pow_lt|apply INR_fact_lt_0]. }
    assert (J : 0 <= INR j * (sJ * sJ)) by (apply Rmult_le_pos; [apply pos_INR|nra]).
    assert (UV : 0 < sqrt (v1 + INR j * (sJ * sJ)) < sqrt (v2 + INR j * (sJ * sJ))) by (split; [apply sqrt_lt_R0|apply sqrt_lt_1]; lra).
    destruct (call_rises Fj K HFj HK _ _ UV) as [A _]. apply Rlt_Rminus. apply Rmult_lt_compat_l; [exact W|].
    destruct TY as [-> | ->]; cbn [lognormal_payoff]; rewrite ?put_parity; lra. }
  pose proof (series_above _ _ 0 (fun i => Rlt_le _ _ (T i)) H) as A. cbn [sum_f_R0] in A. pose proof (T 0%nat) as B.
  assert (0 < q2 - q1); [|lra]. eapply Rlt_le_trans; [exact B|exact A].
Qed.

Theorem C134_merton : forall la1 P1 W1 w1 wm1 g1 N1 d1 la2 P2 W2 w2 wm2 g2 N2 d2 lambda muJ sigmaJ ty K,
  merton_setting P1 W1 w1 wm1 g1 N1 d1 lambda muJ sigmaJ -> merton_setting P2 W2 w2 wm2 g2 N2 d2 lambda muJ sigmaJ ->
  optKind (pcOption P1) = European -> optKind (pcOption P2) = European ->
  optPayoff (pcOption P1) = PVanilla ty K -> optPayoff (pcOption P2) = PVanilla ty K -> ty = Call \/ ty = Put ->
  optT (pcOption P2) = optT (pcOption P1) ->
  getR w1 = getR w2 -> getR wm1 = getR wm2 -> getPrice d1 = getPrice d2 -> dividend d1 = dividend d2 -> getSigma d1 < getSigma d2 ->
  forall p1 p2, is_price_mean la1 P1 W1 N1 (fun v => v) p1 -> is_price_mean la2 P2 W2 N2 (fun v => v) p2 -> p1 < p2.
Proof.
  intros la1 P1 W1 w1 wm1 g1 N1 d1 la2 P2 W2 w2 wm2 g2 N2 d2 lambda muJ sigmaJ ty K G1 G2 KE1 KE2 PV1 PV2 TY ET RR RM SS DD SG p1 p2 M1 M2.
  destruct (C123_mixture la1 P1 W1 w1 wm1 g1 N1 d1 lambda muJ sigmaJ European G1 ltac:(now left) KE1) as (q1 & J1 & B1).
  destruct (C123_mixture la2 P2 W2 w2 wm2 g2 N2 d2 lambda muJ sigmaJ European G2 ltac:(now left) KE2) as (q2 & J2 & B2).
  assert (NA1 : pcClass P1 <> CAmerican) by (destruct G1 as ((A & _) & _); intros C; rewrite C, KE1 in A; discriminate).
  assert (NA2 : pcClass P2 <> CAmerican) by (destruct G2 as ((A & _) & _); intros C; rewrite C, KE2 in A; discriminate).
  destruct G1 as (WF1 & L1 & LN1 & Q1 & (LD1 & _) & _ & _ & S1 & SG1 & LA & _ & T1 & PS). destruct G2 as (WF2 & L2 & LN2 & Q2 & (LD2 & _) & _).
  rewrite (C94_unique la1 P1 W1 w1 wm1 g1 N1 _ _ _ WF1 NA1 L1 LN1 Q1 LD1 M1 B1), (C94_unique la2 P2 W2 w2 wm2 g2 N2 _ _ _ WF2 NA2 L2 LN2 Q2 LD2 M2 B2).
  rewrite PV1 in PS, J1. rewrite PV2 in J2. cbn in PS. rewrite ET in J2 |- *. set (T := optT (pcOption P1)) in *.
  assert (EF : forward wm2 d2 T = forward wm1 d1 T) by (unfold forward; rewrite RM, SS, DD; reflexivity). rewrite EF in J2. rewrite <- RR.
  apply Rmult_lt_compat_l; [apply exp_pos|].
  apply (mixture_vega ty K (forward wm1 d1 T) (getSigma d1 * getSigma d1 * T) (getSigma d2 * getSigma d2 * T) (lambda * T) muJ sigmaJ q1 q2 TY PS); try assumption.
  - unfold forward. apply Rmult_lt_0_compat; [exact S1|apply exp_pos].
  - split; [repeat apply Rmult_lt_0_compat; easy|]. apply Rmult_lt_compat_r; [easy|]. apply Rmult_le_0_lt_compat; lra.
  - now apply Rmult_lt_0_compat.
Qed.
Print Assumptions C134_merton.

(** AAPL at 100, one jump a year of mean size -10 per cent, a put struck at 90. *)
Example C134_merton_ex : forall la n N, (1 <= n <= INT_MAX)%Z -> (1 <= N <= INT_MAX)%Z ->
  let w s := mkMarket (5/100) [("AAPL"%string, 0%nat)] [] [mkStock 100 s None] [] : Market R in
  let W s := mkWorld [w s] [Pseudo_ctor1 n 7] : World R in
  let P := merton_on CSinglePath European (PVanilla Put 90) 1 (-1/10) (1/10) in
  exists p1 p2, is_price_mean la P (W (20/100)) N (fun v => v) p1 /\ is_price_mean la P (W (21/100)) N (fun v => v) p2 /\ p1 < p2.
Proof.
  intros la n N Ln LN w W P.
  assert (G : forall s, 0 < s -> merton_setting P (W s) (w s) (w s) (Pseudo_ctor1 n 7) N (mkStock 100 s None) 1 (-1/10) (1/10)).
  { intros s S. split; [exact (pricer_wf CSinglePath European Put 90 None 0 eq_refl ltac:(now right) ltac:(lra) eq_refl)|].
    repeat (split; [solve [easy | cbn; lra]|]). cbn. lra. }
  assert (G1 := G (20/100) ltac:(lra)). assert (G2 := G (21/100) ltac:(lra)).
  destruct (C123_mixture la _ _ _ _ _ N _ _ _ _ European G1 ltac:(now left) eq_refl) as (q1 & _ & B1).
  destruct (C123_mixture la _ _ _ _ _ N _ _ _ _ European G2 ltac:(now left) eq_refl) as (q2 & _ & B2).
  eexists. eexists. split; [exact B1|]. split; [exact B2|].
  refine (C134_merton la _ _ _ _ _ N _ la _ _ _ _ _ N _ _ _ _ Put 90 G1 G2 eq_refl eq_refl eq_refl eq_refl _ eq_refl eq_refl eq_refl eq_refl eq_refl _ _ _ B1 B2); [now right|cbn; lra].
Qed.
