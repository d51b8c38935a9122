(** Property C135: under GBM the expected price of a call on a stock without dividends, at a
    rate that is not negative, rises with the maturity; so does that of a put at rate 0. *)
From Coq Require Import String List ZArith Reals Bool Lra Lia.
From Coquelicot Require Import Coquelicot.
From Flocq Require Import Core.
From Verif Require Import M_Num M_Outcome M_Dict M_Stock M_Market M_Payoff M_Option M_Random M_Model
  M_Regression M_MonteCarlo M_Builder S_Market S_Option S_Model S_Prob S_MonteCarlo S_Expect S_PriceMean S_Normal
  L_Gauss L_Martingale L_MonteCarlo L_Expect L_Sampler L_Growth L_PriceMean L_Normal L_Lognormal L_BlackScholes P_McRelations P_Growth P_PriceMean P_Vega.
Import ListNotations.
Local Open Scope R_scope.

(** The formula falls with the strike. *)
Lemma call_strike_derive : forall F K v, 0 < F -> 0 < K -> 0 < v -> is_derive (fun k => black_call F k v) K (- Phi (black_d2 F K v)).
Proof.
  intros F K v HF HK V. set (e := - / (K * v)).
  assert (D0 : is_derive (fun k => black_d1 F k v) K e).
  { unfold black_d1, e. assert (0 < F / K) by (now apply Rdiv_lt_0_compat). auto_derive; [repeat split; try easy; lra|]. field. lra. }
  assert (D1 : is_derive (fun k => Phi (black_d1 F k v)) K (e * phi (black_d1 F K v))) by (apply (comp_derive Phi (fun k => black_d1 F k v)); [exact D0|apply Phi_derive]).
  assert (D2' : is_derive (fun k => black_d2 F k v) K e).
  { unfold black_d2. replace e with (minus e (zero : R_AbsRing)) by (unfold minus, plus, opp, zero; cbn; ring). apply @is_derive_minus; [exact D0|apply @is_derive_const]. }
  assert (D2 : is_derive (fun k => Phi (black_d2 F k v)) K (e * phi (black_d2 F K v))) by (apply (comp_derive Phi (fun k => black_d2 F k v)); [exact D2'|apply Phi_derive]).
  replace (- Phi (black_d2 F K v)) with (F * (e * phi (black_d1 F K v)) - (1 * Phi (black_d2 F K v) + K * (e * phi (black_d2 F K v)))).
  - unfold black_call. apply @is_derive_minus; [now apply is_derive_scal|]. apply (mult_derive (fun k => k) (fun k => Phi (black_d2 F k v))); [apply @is_derive_id|exact D2].
  - replace (K * (e * phi (black_d2 F K v))) with (e * (K * phi (black_d2 F K v))) by ring. rewrite (phi_d2 F K HF HK v V). ring.
Qed.
Lemma call_strike : forall F K1 K2 v, 0 < F -> 0 < K1 <= K2 -> 0 < v -> black_call F K2 v <= black_call F K1 v.
Proof.
  intros F K1 K2 v HF HK V. destruct (MVT_gen (fun k => black_call F k v) K1 K2 (fun k => - Phi (black_d2 F k v))) as (c & C & E).
  - intros x X. rewrite Rmin_left, Rmax_right in X by lra. apply call_strike_derive; lra.
  - intros x X. rewrite Rmin_left, Rmax_right in X by lra. apply derivable_continuous_pt. exists (- Phi (black_d2 F x v)). apply is_derive_Reals, call_strike_derive; lra.
  - pose proof (Phi_bound (black_d2 F c v)) as P. assert (0 <= Phi (black_d2 F c v) * (K2 - K1)) by (apply Rmult_le_pos; lra). lra.
Qed.
(** A put is a call with the two prices exchanged. *)
Lemma put_is_call : forall F K v, 0 < F -> 0 < K -> 0 < v -> black_put F K v = black_call K F v.
Proof.
  intros F K v HF HK V. assert (D : black_d1 K F v = - black_d2 F K v).
  { unfold black_d2, black_d1, Rdiv. rewrite !ln_mult, !ln_Rinv by (auto using Rinv_0_lt_compat). field. lra. }
  unfold black_put, black_call. unfold black_d2 at 2. rewrite D. replace (- black_d2 F K v - v) with (- black_d1 F K v) by (unfold black_d2; ring). reflexivity.
Qed.
Lemma call_scale : forall a F K v, 0 < a -> 0 < K -> a * black_call F K v = black_call (a * F) (a * K) v.
Proof.
  intros a F K v A HK. assert (D : black_d1 (a * F) (a * K) v = black_d1 F K v) by (unfold black_d1; replace (a * F / (a * K)) with (F / K) by (field; lra); reflexivity).
  unfold black_call, black_d2. rewrite D. ring.
Qed.

(** Two pricers in any worlds; the maturities differ. *)
Theorem C135_maturity : forall la1 P1 W1 w1 wm1 g1 N1 d1 la2 P2 W2 w2 wm2 g2 N2 d2 ty K r,
  gbm_setting P1 W1 w1 wm1 g1 N1 d1 -> gbm_setting P2 W2 w2 wm2 g2 N2 d2 ->
  optKind (pcOption P1) = European -> optKind (pcOption P2) = European ->
  optPayoff (pcOption P1) = PVanilla ty K -> optPayoff (pcOption P2) = PVanilla ty K ->
  getR w1 = r -> getR w2 = r -> getR wm1 = r -> getR wm2 = r ->
  getPrice d1 = getPrice d2 -> dividend d1 = dividend d2 -> getSigma d1 = getSigma d2 ->
  ty = Call /\ 0 <= r /\ dividend d1 = 0 \/ ty = Put /\ r = 0 /\ 0 <= dividend d1 ->
  optT (pcOption P1) < optT (pcOption P2) ->
  forall p1 p2, is_price_mean la1 P1 W1 N1 (fun v => v) p1 -> is_price_mean la2 P2 W2 N2 (fun v => v) p2 -> p1 < p2.
Proof.
  intros la1 P1 W1 w1 wm1 g1 N1 d1 la2 P2 W2 w2 wm2 g2 N2 d2 ty K r G1 G2 KE1 KE2 PV1 PV2 R1 R2 RM1 RM2 SS DD SG TY TT p1 p2 M1 M2.
  pose proof (C96_black_scholes la1 P1 W1 w1 wm1 g1 N1 d1 European G1 ltac:(now left) KE1) as B1.
  pose proof (C96_black_scholes la2 P2 W2 w2 wm2 g2 N2 d2 European G2 ltac:(now left) KE2) as B2. cbv zeta in B1, B2.
  assert (NA1 : pcClass P1 <> CAmerican) by (destruct G1 as ((A & _) & _); intros C; rewrite C, KE1 in A; discriminate).
  assert (NA2 : pcClass P2 <> CAmerican) by (destruct G2 as ((A & _) & _); intros C; rewrite C, KE2 in A; discriminate).
  destruct G1 as (WF1 & L1 & LN1 & Q1 & (LD1 & _) & _ & _ & S1 & SG1 & T1 & PS). destruct G2 as (WF2 & L2 & LN2 & Q2 & (LD2 & _) & _).
  rewrite (C94_unique la1 P1 W1 w1 wm1 g1 N1 _ _ _ WF1 NA1 L1 LN1 Q1 LD1 M1 B1), (C94_unique la2 P2 W2 w2 wm2 g2 N2 _ _ _ WF2 NA2 L2 LN2 Q2 LD2 M2 B2).
  rewrite PV1 in PS |- *. rewrite PV2. cbn in PS. unfold forward. rewrite <- SS, <- DD, <- SG, R1, R2, RM1, RM2.
  set (S := getPrice d1) in *. set (c := dividend d1) in *. set (s := getSigma d1) in *. set (t1 := optT (pcOption P1)) in *. set (t2 := optT (pcOption P2)) in *.
  clear - S1 SG1 T1 PS TT TY.
  assert (UV : 0 < s * sqrt t1 < s * sqrt t2) by (split; [apply Rmult_lt_0_compat; [easy|now apply sqrt_lt_R0]|apply Rmult_lt_compat_l; [easy|]; apply sqrt_lt_1; lra]).
  set (u := s * sqrt t1) in *. set (v := s * sqrt t2) in *.
  destruct TY as [(-> & R0 & C0)|(-> & -> & C0)]; cbn [lognormal_payoff].
  - rewrite !call_scale by (try apply exp_pos; easy). rewrite C0.
    assert (E : forall t, exp (- r * t) * (S * exp ((r - 0) * t)) = S).
    { intros t. replace (exp (- r * t) * (S * exp ((r - 0) * t))) with (S * (exp (- r * t) * exp ((r - 0) * t))) by ring. rewrite <- exp_plus. replace (- r * t + (r - 0) * t) with 0 by ring. rewrite exp_0. ring. }
    rewrite !E. assert (X1 := exp_pos (- r * t1)). assert (X2 := exp_pos (- r * t2)).
    assert (LE : exp (- r * t2) <= exp (- r * t1)).
    { destruct (Req_dec r 0) as [->|NR]; [right; f_equal; ring|]. left. apply exp_increasing. assert (r * t1 < r * t2) by (apply Rmult_lt_compat_l; lra). lra. }
    assert (K1 : 0 < exp (- r * t1) * K) by (now apply Rmult_lt_0_compat).
    destruct (call_rises S (exp (- r * t1) * K) S1 K1 u v UV) as [A _].
    pose proof (call_strike S (exp (- r * t2) * K) (exp (- r * t1) * K) v S1 ltac:(split; [now apply Rmult_lt_0_compat|apply Rmult_le_compat_r; lra]) ltac:(lra)). lra.
  - replace (- 0 * t1) with 0 by ring. replace (- 0 * t2) with 0 by ring. rewrite exp_0, !Rmult_1_l.
    assert (X1 := exp_pos ((0 - c) * t1)). assert (X2 := exp_pos ((0 - c) * t2)).
    assert (F1 : 0 < S * exp ((0 - c) * t1)) by (now apply Rmult_lt_0_compat). assert (F2 : 0 < S * exp ((0 - c) * t2)) by (now apply Rmult_lt_0_compat).
    rewrite !put_is_call by (auto; lra).
    assert (LE : exp ((0 - c) * t2) <= exp ((0 - c) * t1)).
    { destruct (Req_dec c 0) as [->|NC]; [right; f_equal; ring|]. left. apply exp_increasing. assert (c * t1 < c * t2) by (apply Rmult_lt_compat_l; lra). lra. }
    destruct (call_rises K (S * exp ((0 - c) * t1)) PS F1 u v UV) as [A _].
    pose proof (call_strike K (S * exp ((0 - c) * t2)) (S * exp ((0 - c) * t1)) v PS ltac:(split; [easy|apply Rmult_le_compat_l; lra]) ltac:(lra)). lra.
Qed.
Print Assumptions C135_maturity.

(** AAPL at 100, no dividend, rate 5%: a call struck at 90 for one year and for two. *)
Example C135_ex : forall la n N, (1 <= n <= INT_MAX)%Z -> (1 <= N <= INT_MAX)%Z ->
  let P t := mkPricer CSinglePath (mkOption European "AAPL" t (PVanilla Call 90) None 0) (Some 0%nat) (mkModelObj (mkModel "AAPL" 0 MGBM) 0 0) None None : Pricer R in
  exists p1 p2, is_price_mean la (P 1) (world_at 100 n) N (fun v => v) p1 /\ is_price_mean la (P 2) (world_at 100 n) N (fun v => v) p2 /\ p1 < p2.
Proof.
  intros la n N Ln LN P.
  assert (G : forall t, 0 < t -> gbm_setting (P t) (world_at 100 n) (w_at 100) (w_at 100) (Pseudo_ctor1 n 7) N (mkStock 100 (2/10) None)).
  { intros t T. split.
    - split; [reflexivity|]. unfold wf_option; cbn. split; [lra|]. split; [|reflexivity]. exists Call, 90. split; [now left|]. split; [lra|reflexivity].
    - repeat (split; [solve [easy | cbn; lra]|]). cbn. lra. }
  assert (G1 := G 1 ltac:(lra)). assert (G2 := G 2 ltac:(lra)).
  pose proof (C96_black_scholes la _ _ _ _ _ N _ European G1 ltac:(now left) eq_refl) as B1.
  pose proof (C96_black_scholes la _ _ _ _ _ N _ European G2 ltac:(now left) eq_refl) as B2.
  eexists. eexists. split; [exact B1|]. split; [exact B2|].
  refine (C135_maturity la _ _ _ _ _ N _ la _ _ _ _ _ N _ Call 90 (5/100) G1 G2 eq_refl eq_refl eq_refl eq_refl eq_refl eq_refl eq_refl eq_refl eq_refl eq_refl eq_refl _ _ _ _ B1 B2);
    [left; split; [easy|]; split; [lra|reflexivity]|cbn; lra].
Qed.
