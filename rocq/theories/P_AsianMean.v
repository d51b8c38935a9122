(** Property C136: under GBM, at a rate not below the dividend yield, the expected price of a
    geometric Asian call is at most that of the European call. *)
From Coq Require Import String List ZArith Reals Bool Lra Lia.
From Coquelicot Require Import Coquelicot.
From Flocq Require Import Core.
From Verif Require Import M_Num M_Outcome M_Dict M_Stock M_Market M_Payoff M_Option M_Random M_Model
  M_Regression M_MonteCarlo M_Builder S_Market S_Option S_Model S_Prob S_MonteCarlo S_Expect S_PriceMean S_Normal
  L_Gauss L_Martingale L_MonteCarlo L_Expect L_Sampler L_Growth L_PriceMean L_Normal L_Lognormal L_BlackScholes P_McRelations P_Growth P_PriceMean P_Merton P_Vega.
Import ListNotations.
Local Open Scope R_scope.

(** The mean date and the mean variance of the average over n dates. *)
Lemma asian_dates : forall T n, 0 < T -> 1 <= n -> let u := T * (n + 1) / (2 * n) in let q := T * (n + 1) * (2 * n + 1) / (6 * n * n) in
  0 < q <= u /\ u <= T /\ (1 < n -> q < T).
Proof.
  intros T n HT HN u q.
  assert (U : T - u = T * (n - 1) / (2 * n)) by (unfold u; field; lra).
  assert (Q : u - q = T * (n + 1) * (n - 1) / (6 * n * n)) by (unfold u, q; field; lra).
  assert (0 < 2 * n) by lra. assert (0 < 6 * n * n) by (apply Rmult_lt_0_compat; lra).
  assert (A : 0 <= T * (n - 1) / (2 * n)) by (apply Rmult_le_pos; [apply Rmult_le_pos; lra|left; now apply Rinv_0_lt_compat]).
  assert (B : 0 <= T * (n + 1) * (n - 1) / (6 * n * n)) by (apply Rmult_le_pos; [apply Rmult_le_pos; [apply Rmult_le_pos|]; lra|left; now apply Rinv_0_lt_compat]).
  repeat split; try lra.
  - unfold q. apply Rdiv_lt_0_compat; [|easy]. apply Rmult_lt_0_compat; [apply Rmult_lt_0_compat|]; lra.
  - intros N1. assert (0 < T * (n - 1) / (2 * n)) by (apply Rdiv_lt_0_compat; [apply Rmult_lt_0_compat; lra|easy]). lra.
Qed.
Lemma call_forward : forall F1 F2 K v, 0 < F1 <= F2 -> 0 < K -> 0 < v -> black_call F1 K v <= black_call F2 K v.
Proof.
  intros F1 F2 K v [A B] HK V. destruct (Req_dec F1 F2) as [->|NE]; [lra|]. left. apply (call_incr (PVanilla Call K) F1 F2 v); [exact I|exact HK|lra|exact V].
Qed.

Theorem C136_geometric : forall la1 P1 W1 w1 wm1 g1 N1 d1 la2 P2 W2 w2 wm2 g2 N2 d2 K,
  gbm_setting P1 W1 w1 wm1 g1 N1 d1 -> gbm_setting P2 W2 w2 wm2 g2 N2 d2 ->
  optKind (pcOption P1) = GeometricAsian -> optKind (pcOption P2) = European ->
  optPayoff (pcOption P1) = PVanilla Call K -> optPayoff (pcOption P2) = PVanilla Call K ->
  optT (pcOption P2) = optT (pcOption P1) ->
  getR w1 = getR w2 -> getR wm1 = getR wm2 -> getPrice d1 = getPrice d2 -> dividend d1 = dividend d2 -> getSigma d1 = getSigma d2 ->
  dividend d1 <= getR wm1 ->
  forall p1 p2, is_price_mean la1 P1 W1 N1 (fun v => v) p1 -> is_price_mean la2 P2 W2 N2 (fun v => v) p2 ->
  p1 <= p2 /\ ((2 <= getDim g1)%Z -> p1 < p2).
Proof.
  intros la1 P1 W1 w1 wm1 g1 N1 d1 la2 P2 W2 w2 wm2 g2 N2 d2 K G1 G2 KE1 KE2 PV1 PV2 ET RR RM SS DD SG CR p1 p2 M1 M2.
  pose proof (C97_geometric_asian la1 P1 W1 w1 wm1 g1 N1 d1 G1 KE1) as B1.
  pose proof (C96_black_scholes la2 P2 W2 w2 wm2 g2 N2 d2 European G2 ltac:(now left) KE2) as B2. cbv zeta in B1, B2.
  assert (NA1 : pcClass P1 <> CAmerican) by (destruct G1 as ((A & _) & _); intros C; rewrite C, KE1 in A; discriminate).
  assert (NA2 : pcClass P2 <> CAmerican) by (destruct G2 as ((A & _) & _); intros C; rewrite C, KE2 in A; discriminate).
  destruct G1 as (WF1 & L1 & LN1 & Q1 & (LD1 & _) & _ & _ & S1 & SG1 & T1 & PS). destruct G2 as (WF2 & L2 & LN2 & Q2 & (LD2 & _) & _).
  rewrite (C94_unique la1 P1 W1 w1 wm1 g1 N1 _ _ _ WF1 NA1 L1 LN1 Q1 LD1 M1 B1), (C94_unique la2 P2 W2 w2 wm2 g2 N2 _ _ _ WF2 NA2 L2 LN2 Q2 LD2 M2 B2).
  rewrite PV1 in PS |- *. rewrite PV2. cbn in PS. cbn [lognormal_payoff]. rewrite ET. unfold forward. rewrite <- SS, <- DD, <- SG, <- RM, <- RR.
  set (S := getPrice d1) in *. set (c := dividend d1) in *. set (s := getSigma d1) in *. set (T := optT (pcOption P1)) in *. set (r := getR wm1) in *.
  assert (D1 : 1 <= IZR (getDim g1)) by (apply IZR_le; lia). assert (D2 : (2 <= getDim g1)%Z -> 1 < IZR (getDim g1)) by (intros; apply IZR_lt; lia).
  set (n := IZR (getDim g1)) in *. set (D := exp (- getR w1 * T)). assert (HD : 0 < D) by apply exp_pos.
  clear - S1 SG1 T1 PS CR D1 D2 HD.
  destruct (asian_dates T n T1 D1) as ((Q0 & QU) & UT & QT). set (u := T * (n + 1) / (2 * n)) in *. set (q := T * (n + 1) * (2 * n + 1) / (6 * n * n)) in *.
  set (FG := S * exp ((r - c - s * s / 2) * u + s * s * q / 2)). set (F := S * exp ((r - c) * T)).
  assert (SS : 0 <= s * s * (u - q)) by (apply Rmult_le_pos; [apply Rle_0_sqr|lra]). assert (RT : 0 <= (r - c) * (T - u)) by (apply Rmult_le_pos; lra).
  assert (FF : 0 < FG <= F).
  { split; [apply Rmult_lt_0_compat; [easy|apply exp_pos]|]. apply Rmult_le_compat_l; [lra|].
    destruct (Req_dec ((r - c - s * s / 2) * u + s * s * q / 2) ((r - c) * T)) as [->|NE]; [lra|]. left. apply exp_increasing. lra. }
  assert (VG : 0 < s * sqrt q) by (apply Rmult_lt_0_compat; [easy|now apply sqrt_lt_R0]).
  assert (ST : (2 <= getDim g1)%Z -> black_call FG K (s * sqrt q) < black_call F K (s * sqrt T)).
  { intros N2. specialize (QT (D2 N2)). assert (UV : 0 < s * sqrt q < s * sqrt T) by (split; [easy|apply Rmult_lt_compat_l; [easy|apply sqrt_lt_1; lra]]).
    destruct (call_rises F K ltac:(lra) PS _ _ UV) as [A _]. pose proof (call_forward FG F K (s * sqrt q) FF PS VG). lra. }
  split; [|intros N2; apply Rmult_lt_compat_l; auto]. apply Rmult_le_compat_l; [lra|].
  eapply Rle_trans; [apply (call_forward FG F K _ FF PS VG)|]. destruct (Req_dec q T) as [->|NE]; [lra|].
  assert (UV : 0 < s * sqrt q < s * sqrt T) by (split; [easy|apply Rmult_lt_compat_l; [easy|apply sqrt_lt_1; lra]]).
  destruct (call_rises F K ltac:(lra) PS _ _ UV) as [A _]. lra.
Qed.
Print Assumptions C136_geometric.

(** AAPL at 100, no dividend, rate 5%: calls struck at 90, averaged over twelve dates or not. *)
Example C136_ex : forall la N, (1 <= N <= INT_MAX)%Z -> exists p1 p2,
  is_price_mean la (pricer_on (CAsian Geometric) GeometricAsian (PVanilla Call 90) None 0) (world_at 100 12) N (fun v => v) p1 /\
  is_price_mean la (pricer_on CSinglePath European (PVanilla Call 90) None 0) (world_at 100 12) N (fun v => v) p2 /\ p1 < p2.
Proof.
  intros la N LN. assert (Ln : (1 <= 12 <= INT_MAX)%Z) by (unfold INT_MAX; lia).
  assert (G1 := example_setting (CAsian Geometric) GeometricAsian (PVanilla Call 90) 12 N (pricer_wf (CAsian Geometric) GeometricAsian Call 90 None 0 eq_refl ltac:(now left) ltac:(lra) eq_refl) ltac:(cbn; lra) Ln LN).
  assert (G2 := example_setting CSinglePath European (PVanilla Call 90) 12 N (pricer_wf CSinglePath European Call 90 None 0 eq_refl ltac:(now left) ltac:(lra) eq_refl) ltac:(cbn; lra) Ln LN).
  pose proof (C97_geometric_asian la _ _ _ _ _ N _ G1 eq_refl) as B1. pose proof (C96_black_scholes la _ _ _ _ _ N _ European G2 ltac:(now left) eq_refl) as B2. cbv zeta in B1, B2.
  eexists. eexists. split; [exact B1|]. split; [exact B2|].
  refine (proj2 (C136_geometric la _ _ _ _ _ N _ la _ _ _ _ _ N _ 90 G1 G2 eq_refl eq_refl eq_refl eq_refl eq_refl eq_refl eq_refl eq_refl eq_refl eq_refl _ _ _ B1 B2) _); [unfold dividend; cbn; lra|cbn; lia].
Qed.
