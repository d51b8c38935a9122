(** Property C134: the expected Monte Carlo price of a vanilla option under GBM rises with
    the volatility, and not faster than half the discounted forward times sqrt T. *)
From Coq Require Import String List ZArith Reals Bool Lra Lia.
From Coquelicot Require Import Coquelicot.
From Flocq Require Import Core.
From Verif Require Import M_Num M_Outcome M_Dict M_Stock M_Market M_Payoff M_Option M_Random M_Model
  M_Regression M_MonteCarlo M_Builder S_Market S_Option S_Model S_Prob S_MonteCarlo S_Expect S_PriceMean S_Normal
  L_Gauss L_Martingale L_MonteCarlo L_Expect L_Sampler L_Growth L_PriceMean L_Normal L_Lognormal L_BlackScholes P_McRelations P_Growth P_PriceMean.
Import ListNotations.
Local Open Scope R_scope.

Lemma phi_half : forall z, phi z <= 1 / 2.
Proof.
  intros z. unfold phi. pose proof PI2_1 as P.
  assert (S : 2 <= sqrt (2 * PI)). { replace 2 with (sqrt (2 * 2)) at 1 by (apply sqrt_square; lra). apply sqrt_le_1; lra. }
  assert (E : exp (- (z * z) / 2) <= 1).
  { apply Rle_trans with (exp 0); [|rewrite exp_0; lra]. destruct (Req_dec z 0) as [->|NZ]; [right; f_equal; field|]. left. apply exp_increasing. assert (0 < z * z) by (apply Rsqr_pos_lt in NZ; exact NZ). lra. }
  apply (Rmult_le_reg_r (sqrt (2 * PI))); [lra|]. unfold Rdiv at 1. rewrite Rmult_assoc, Rinv_l by lra. lra.
Qed.

Section Vega.
Variables F K : R. Hypothesis HF : 0 < F. Hypothesis HK : 0 < K.
Lemma d1_derive : forall v, 0 < v -> is_derive (black_d1 F K) v (1 / 2 - ln (F / K) / (v * v)).
Proof. intros v V. unfold black_d1. auto_derive; [lra|]. field. lra. Qed.
Lemma phi_d2 : forall v, 0 < v -> K * phi (black_d2 F K v) = F * phi (black_d1 F K v).
Proof.
  intros v V. unfold black_d2. set (d := black_d1 F K v).
  assert (D : d * v = ln (F / K) + v * v / 2) by (unfold d, black_d1; field; lra).
  unfold phi. replace (- ((d - v) * (d - v)) / 2) with (- (d * d) / 2 + ln (F / K)) by lra.
  assert (FK : 0 < F / K) by (now apply Rdiv_lt_0_compat). rewrite exp_plus, exp_ln by exact FK. field.
  split; [apply Rgt_not_eq, sqrt_lt_R0; pose proof PI_RGT_0; lra|lra].
Qed.
Lemma call_vega : forall v, 0 < v -> is_derive (black_call F K) v (F * phi (black_d1 F K v)).
Proof.
  intros v V. set (e := 1 / 2 - ln (F / K) / (v * v)).
  assert (D1 : is_derive (fun u => Phi (black_d1 F K u)) v (e * phi (black_d1 F K v))) by (apply (comp_derive Phi (black_d1 F K)); [now apply d1_derive|apply Phi_derive]).
  assert (D2' : is_derive (black_d2 F K) v (e - 1)).
  { unfold black_d2. apply @is_derive_minus; [now apply d1_derive|apply @is_derive_id]. }
  assert (D2 : is_derive (fun u => Phi (black_d2 F K u)) v ((e - 1) * phi (black_d2 F K v))) by (apply (comp_derive Phi (black_d2 F K)); [exact D2'|apply Phi_derive]).
  replace (F * phi (black_d1 F K v)) with (F * (e * phi (black_d1 F K v)) - K * ((e - 1) * phi (black_d2 F K v))).
  - unfold black_call. apply @is_derive_minus; apply is_derive_scal; assumption.
  - replace (K * ((e - 1) * phi (black_d2 F K v))) with ((e - 1) * (K * phi (black_d2 F K v))) by ring. rewrite (phi_d2 v V). ring.
Qed.
Lemma call_rises : forall u v, 0 < u < v -> 0 < black_call F K v - black_call F K u <= F * (v - u) / 2.
Proof.
  intros u v UV. destruct (MVT_gen (black_call F K) u v (fun x => F * phi (black_d1 F K x))) as (c & C & E).
  - intros x X. rewrite Rmin_left, Rmax_right in X by lra. apply call_vega. lra.
  - intros x X. rewrite Rmin_left, Rmax_right in X by lra. apply derivable_continuous_pt. exists (F * phi (black_d1 F K x)). apply is_derive_Reals, call_vega. lra.
  - rewrite E. pose proof (phi_pos (black_d1 F K c)) as P. pose proof (phi_half (black_d1 F K c)) as Q. assert (A : 0 < F * (v - u)) by (apply Rmult_lt_0_compat; lra).
    split; [apply Rmult_lt_0_compat; [apply Rmult_lt_0_compat|]; lra|].
    replace (F * phi (black_d1 F K c) * (v - u)) with (F * (v - u) * phi (black_d1 F K c)) by ring. replace (F * (v - u) / 2) with (F * (v - u) * (1 / 2)) by field. apply Rmult_le_compat_l; lra.
Qed.
Lemma put_parity : forall v, black_put F K v = black_call F K v - F + K.
Proof. intros v. unfold black_put, black_call. rewrite !Phi_opp. ring. Qed.
End Vega.

(** Two pricers, in any worlds, for vanilla options with one strike and maturity, on stocks
    with one price and dividend yield at one rate; the second stock is more volatile. *)
Theorem C134_volatility : forall la1 P1 W1 w1 wm1 g1 N1 d1 la2 P2 W2 w2 wm2 g2 N2 d2 ty K,
  gbm_setting P1 W1 w1 wm1 g1 N1 d1 -> gbm_setting P2 W2 w2 wm2 g2 N2 d2 ->
  optKind (pcOption P1) = European -> optKind (pcOption P2) = European ->
  optPayoff (pcOption P1) = PVanilla ty K -> optPayoff (pcOption P2) = PVanilla ty K -> ty = Call \/ ty = Put ->
  let T := optT (pcOption P1) in optT (pcOption P2) = T ->
  getR w1 = getR w2 -> getR wm1 = getR wm2 -> getPrice d1 = getPrice d2 -> dividend d1 = dividend d2 -> getSigma d1 < getSigma d2 ->
  forall p1 p2, is_price_mean la1 P1 W1 N1 (fun v => v) p1 -> is_price_mean la2 P2 W2 N2 (fun v => v) p2 ->
  0 < p2 - p1 <= exp (- getR w1 * T) * forward wm1 d1 T * ((getSigma d2 - getSigma d1) * sqrt T) / 2.
Proof.
  intros la1 P1 W1 w1 wm1 g1 N1 d1 la2 P2 W2 w2 wm2 g2 N2 d2 ty K G1 G2 KE1 KE2 PV1 PV2 TY T ET RR RM SS DD SG p1 p2 M1 M2.
  pose proof (C96_black_scholes la1 P1 W1 w1 wm1 g1 N1 d1 European G1 ltac:(now left) KE1) as B1.
  pose proof (C96_black_scholes la2 P2 W2 w2 wm2 g2 N2 d2 European G2 ltac:(now left) KE2) as B2. cbv zeta in B1, B2.
  assert (NA1 : pcClass P1 <> CAmerican) by (destruct G1 as ((A & _) & _); intros C; rewrite C, KE1 in A; discriminate).
  assert (NA2 : pcClass P2 <> CAmerican) by (destruct G2 as ((A & _) & _); intros C; rewrite C, KE2 in A; discriminate).
  destruct G1 as (WF1 & L1 & LN1 & Q1 & (LD1 & _) & _ & _ & S1 & SG1 & T1 & PS). destruct G2 as (WF2 & L2 & LN2 & Q2 & (LD2 & _) & _).
  rewrite (C94_unique la1 P1 W1 w1 wm1 g1 N1 _ _ _ WF1 NA1 L1 LN1 Q1 LD1 M1 B1), (C94_unique la2 P2 W2 w2 wm2 g2 N2 _ _ _ WF2 NA2 L2 LN2 Q2 LD2 M2 B2).
  rewrite PV1 in PS |- *. rewrite PV2. cbn in PS. rewrite ET. fold T. fold T in T1.
  assert (EF : forward wm2 d2 T = forward wm1 d1 T) by (unfold forward; rewrite RM, SS, DD; reflexivity). rewrite EF, <- RR.
  set (F := forward wm1 d1 T). set (D := exp (- getR w1 * T)). assert (HD : 0 < D) by apply exp_pos.
  assert (HF : 0 < F) by (unfold F, forward; apply Rmult_lt_0_compat; [exact S1|apply exp_pos]).
  assert (ST : 0 < sqrt T) by (now apply sqrt_lt_R0).
  assert (UV : 0 < getSigma d1 * sqrt T < getSigma d2 * sqrt T) by (split; [now apply Rmult_lt_0_compat|now apply Rmult_lt_compat_r]).
  pose proof (call_rises F K HF PS _ _ UV) as [A B]. set (u := getSigma d1 * sqrt T) in *. set (v := getSigma d2 * sqrt T) in *.
  replace (D * F * ((getSigma d2 - getSigma d1) * sqrt T) / 2) with (D * (F * (v - u) / 2)) by (unfold u, v; field).
  assert (E : D * lognormal_payoff (PVanilla ty K) F v - D * lognormal_payoff (PVanilla ty K) F u = D * (black_call F K v - black_call F K u)).
  { destruct TY as [-> | ->]; cbn [lognormal_payoff]; rewrite ?put_parity; ring. }
  rewrite E. split; [now apply Rmult_lt_0_compat|apply Rmult_le_compat_l; lra].
Qed.
Print Assumptions C134_volatility.

(** Hence at most one volatility explains an expected price. *)
Theorem C134_implied : forall la1 P1 W1 w1 wm1 g1 N1 d1 la2 P2 W2 w2 wm2 g2 N2 d2 ty K,
  gbm_setting P1 W1 w1 wm1 g1 N1 d1 -> gbm_setting P2 W2 w2 wm2 g2 N2 d2 ->
  optKind (pcOption P1) = European -> optKind (pcOption P2) = European ->
  optPayoff (pcOption P1) = PVanilla ty K -> optPayoff (pcOption P2) = PVanilla ty K -> ty = Call \/ ty = Put ->
  optT (pcOption P2) = optT (pcOption P1) ->
  getR w1 = getR w2 -> getR wm1 = getR wm2 -> getPrice d1 = getPrice d2 -> dividend d1 = dividend d2 ->
  forall p, is_price_mean la1 P1 W1 N1 (fun v => v) p -> is_price_mean la2 P2 W2 N2 (fun v => v) p -> getSigma d1 = getSigma d2.
Proof.
  intros la1 P1 W1 w1 wm1 g1 N1 d1 la2 P2 W2 w2 wm2 g2 N2 d2 ty K G1 G2 KE1 KE2 PV1 PV2 TY ET RR RM SS DD p M1 M2.
  destruct (Rtotal_order (getSigma d1) (getSigma d2)) as [L|[E|L]]; [|exact E|].
  - pose proof (C134_volatility la1 P1 W1 w1 wm1 g1 N1 d1 la2 P2 W2 w2 wm2 g2 N2 d2 ty K G1 G2 KE1 KE2 PV1 PV2 TY ET RR RM SS DD L p p M1 M2) as [H _]. lra.
  - pose proof (C134_volatility la2 P2 W2 w2 wm2 g2 N2 d2 la1 P1 W1 w1 wm1 g1 N1 d1 ty K G2 G1 KE2 KE1 PV2 PV1 TY (eq_sym ET) (eq_sym RR) (eq_sym RM) (eq_sym SS) (eq_sym DD) L p p M2 M1) as [H _]. lra.
Qed.
Print Assumptions C134_implied.

(** AAPL at 100: volatility 20% against 21%, a put struck at 90, T = 1: the expected price
    rises by at most 0.50. *)
Example C134_ex : forall la n N, (1 <= n <= INT_MAX)%Z -> (1 <= N <= INT_MAX)%Z ->
  let w s := mkMarket (5/100) [("AAPL"%string, 0%nat)] [] [mkStock 100 s None] [] : Market R in
  let W s := mkWorld [w s] [Pseudo_ctor1 n 7] : World R in
  let P := pricer_on CSinglePath European (PVanilla Put 90) None 0 in
  exists p1 p2, is_price_mean la P (W (20/100)) N (fun v => v) p1 /\ is_price_mean la P (W (21/100)) N (fun v => v) p2 /\ p1 < p2 <= p1 + 1 / 2.
Proof.
  intros la n N Ln LN w W P.
  assert (G : forall s, 0 < s -> gbm_setting P (W s) (w s) (w s) (Pseudo_ctor1 n 7) N (mkStock 100 s None)).
  { intros s S. split; [apply pricer_wf; [reflexivity|now right|lra|reflexivity]|]. repeat (split; [solve [easy | cbn; lra]|]). cbn. lra. }
  assert (G1 := G (20/100) ltac:(lra)). assert (G2 := G (21/100) ltac:(lra)).
  pose proof (C96_black_scholes la _ _ _ _ _ N _ European G1 ltac:(now left) eq_refl) as B1.
  pose proof (C96_black_scholes la _ _ _ _ _ N _ European G2 ltac:(now left) eq_refl) as B2.
  eexists. eexists. split; [exact B1|]. split; [exact B2|].
  pose proof (C134_volatility la _ _ _ _ _ N _ la _ _ _ _ _ N _ Put 90 G1 G2 eq_refl eq_refl eq_refl eq_refl ltac:(now right) eq_refl eq_refl eq_refl eq_refl eq_refl ltac:(cbn; lra) _ _ B1 B2) as [A B].
  match type of B with _ <= ?x => assert (E : x = 1 / 2) end.
  { unfold forward. cbn. rewrite sqrt_1. unfold dividend. cbn. replace (- (5 / 100) * 1) with (- (5 / 100)) by ring. replace ((5 / 100 - 0) * 1) with (5 / 100) by ring.
    assert (X : exp (- (5 / 100)) * exp (5 / 100) = 1) by (rewrite <- exp_plus; replace (- (5 / 100) + 5 / 100) with 0 by ring; apply exp_0).
    replace (exp (- (5 / 100)) * (100 * exp (5 / 100)) * ((21 / 100 - 20 / 100) * 1) / 2) with ((exp (- (5 / 100)) * exp (5 / 100)) * (1 / 2)) by field. rewrite X. lra. }
  rewrite E in B. lra.
Qed.
