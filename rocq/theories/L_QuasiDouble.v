(** Quantiles and payoffs in binary64. *)
From Coq Require Import String List ZArith Reals Lra Lia Bool.
From Flocq Require Import Core BinarySingleNaN.
From Verif Require Import M_Num M_Outcome M_Payoff M_Option M_Random S_Double S_Libm S_Prob S_Normal S_MonteCarlo S_Discrepancy S_GbmDouble S_QuasiDouble
  L_B64 L_Order L_Payoff L_InvCdf L_Normal L_Accuracy L_AccTail L_Near L_AccDouble L_McRound L_GbmDouble L_MeanDouble L_PathDouble P_AccDouble.
Import ListNotations.
Local Open Scope R_scope.

(** ** A computed quantile is at most 50 *)
Lemma cen_bound : forall x, Rabs x <= 42/100 -> Rabs (cen x) <= 40.
Proof.
  intros x X. unfold cen. assert (HB : 1/10 <= fB (x * x)).
  { replace (x * x) with (Rabs x * Rabs x) by (rewrite <- Rabs_mult; apply Rabs_pos_eq; nra). apply fB_low. split; [apply Rabs_pos|exact X]. }
  assert (R : 0 <= x * x <= 18/100) by (apply Rabs_le_inv in X; split; nra). set (r := x * x) in *.
  assert (HA : Rabs (fA r) <= 9).
  { unfold fA. assert (0 <= r * r <= 4/100) by (split; nra). assert (0 <= r * r * r <= 1/100) by (split; nra). apply Rabs_le. split; nra. }
  unfold Rdiv. rewrite !Rabs_mult, Rabs_inv, (Rabs_pos_eq (fB r)) by lra.
  assert (IB : 0 < / fB r <= 10). { split; [apply Rinv_0_lt_compat; lra|]. rewrite <- (Rinv_inv 10). apply Rinv_le; lra. }
  pose proof (Rabs_pos x). pose proof (Rabs_pos (fA r)).
  assert (Rabs x * Rabs (fA r) <= 42/100 * 9) by (apply Rmult_le_compat; lra). assert (0 <= Rabs x * Rabs (fA r)) by (apply Rmult_le_pos; lra).
  apply Rle_trans with (42/100 * 9 * 10); [apply Rmult_le_compat; lra|lra].
Qed.
Lemma tl_bound : forall r, 0 <= r <= 7 -> 0 <= tl r <= 49.
Proof.
  intros r R. unfold tl.
  assert (M : forall a b c, 0 <= a <= b -> 0 <= c -> 0 <= c + r * a <= c + 7 * b).
  { intros a b c A C. assert (0 <= r * a) by (apply Rmult_le_pos; lra). assert (r * a <= 7 * b) by (apply Rmult_le_compat; lra). lra. }
  assert (H8 : 0 <= (3960315187/10000000000000000) <= (3960315187/10000000000000000)) by lra.
  pose proof (M _ _ (2888167364/10000000000000000) H8 ltac:(lra)) as H7.
  pose proof (M _ _ (321767881768/10000000000000000) H7 ltac:(lra)) as H6.
  pose proof (M _ _ (3951896511919/10000000000000000) H6 ltac:(lra)) as H5.
  pose proof (M _ _ (38405729373609/10000000000000000) H5 ltac:(lra)) as H4.
  pose proof (M _ _ (276438810333863/10000000000000000) H4 ltac:(lra)) as H3.
  pose proof (M _ _ (1607979714918209/10000000000000000) H3 ltac:(lra)) as H2.
  pose proof (M _ _ (9761690190917186/10000000000000000) H2 ltac:(lra)) as H1.
  pose proof (M _ _ (3374754822726147/10000000000000000) H1 ltac:(lra)) as H0.
  split; [apply H0|]. eapply Rle_trans; [apply H0|]. lra.
Qed.
Lemma inv64_bounded : forall fexp flog u x, accurate_log flog -> finite u -> 0 < val u < 1 ->
  @snd_inv_cdf b64 (B64 fexp flog) u = Ok x -> Rabs (val x) <= 50.
Proof.
  intros fexp flog u x AC F U E. rewrite inv64_ok in E. destruct (open64 flog u F U) as (up & FU & PU & Q & _). rewrite Q in E. clear Q. cbv zeta in E.
  destruct (b64_ltb (abs64 (b64_sub up (lit64 5 1))) (lit64 42 2)) eqn:B.
  - assert (G : Rabs (val (cen64 (b64_sub up (lit64 5 1)))) <= 50).
    { destruct (shifted up FU PU) as (FX & NEG & C & TB & _). set (y := b64_sub up (lit64 5 1)) in *. rewrite TB in B. clear TB.
      destruct (Rlt_bool_spec (- val y) (rnd (42/100))) as [L|L]; [clear B|discriminate B].
      assert (XB : - val y < 42/100). { apply Rnot_le_lt. intros N. apply rnd_le in N. rewrite rnd_opp, rnd_fmt in N by easy. lra. }
      assert (AB : Rabs (val y) <= 42/100) by (rewrite Rabs_left1; lra).
      destruct (cen_near y FX AB) as [FC EC]. pose proof (cen_bound _ AB) as CB. apply Rabs_le_inv in EC. apply Rabs_le_inv in CB. apply Rabs_le. lra. }
    injection E as <-. destruct (Rlt_bool (1/2) (val u)); [rewrite val_opp, Rabs_Ropp|]; exact G.
  - pose proof (proj1 (branch_tail up FU PU) B) as S. pose proof (loglog flog up AC FU ltac:(lra)) as LL. destruct (tl_near _ _ LL) as [FT ET].
    assert (G : Rabs (val (tl64 (flog (b64_opp (flog up))))) <= 50).
    { set (q := Rmin (val up) (8/100)) in *.
      assert (R : 0 <= ln (- ln q) <= 7).
      { pose proof (least up FU (proj1 PU)) as LE. destruct exp1_bounds as [E1 _].
        assert (QB : 0 < q <= 8/100 /\ - ln q <= 806).
        { unfold q, Rmin. destruct (Rle_dec (val up) (8/100)); [lra|]. split; [lra|]. pose proof (ln_mono (8/100) (val up) ltac:(lra) ltac:(lra)) as LM.
          assert (L8 : ln (exp (Ropp 806)) <= ln (8/100)); [|rewrite ln_exp in L8; lra]. apply ln_mono; [apply exp_pos|].
          rewrite exp_Ropp. pose proof (exp_ineq1_le 806). assert (/ exp 806 <= / 807) by (apply Rinv_le; lra). lra. }
        assert (L1 : 1 <= - ln q).
        { apply Rnot_lt_le. intros N. assert (NN : - (1) < ln q) by lra. apply exp_increasing in NN. rewrite exp_ln, exp_Ropp in NN by lra.
          assert (/ 3 <= / exp 1) by (apply Rinv_le; [apply exp_pos|apply exp_le_3]). lra. }
        split; [rewrite <- ln_1; apply ln_mono; lra|]. rewrite <- (ln_exp 7). apply ln_mono; [lra|].
        replace 7 with (1 + 1 + 1 + (1 + 1 + 1) + 1) by lra. rewrite !exp_plus. set (e := exp 1) in *.
        assert (C2 : 7 <= e * e) by nra. assert (C3 : 20 <= e * e * e) by nra. set (e3 := e * e * e) in *. assert (400 <= e3 * e3) by nra. nra. }
      pose proof (tl_bound _ R). apply Rabs_le_inv in ET. apply Rabs_le. lra. }
    set (t := tl64 (flog (b64_opp (flog up)))) in *. clearbody t.
    injection E as <-. destruct (Rlt_bool (1/2) (val u)); [|rewrite val_opp, Rabs_Ropp]; exact G.
Qed.

(** ** The discount factor *)
Lemma discount64 : forall fexp r t, accurate_exp fexp -> finite r -> finite t -> Rabs (val r * val t) <= 190 ->
  let df := fexp (b64_mul (b64_opp r) t) in let D := exp (- val r * val t) in
  let delta := 102/100 * (1001/1000000000000000000 + (101/100 * u0 * Rabs (val r * val t) + e0)) in
  finite df /\ exp (- 200) <= D <= exp 200 /\ Rabs (val df - D) <= delta * D.
Proof.
  intros fexp r t AE FR FT RB df D delta. unfold df. pose proof (Rabs_pos (val r * val t)) as R0.
  assert (FO := finite_opp _ FR). destruct (val_mul _ _ FO FT) as [NM VM]. rewrite val_opp in VM.
  set (e := b64_mul (b64_opp r) t) in *.
  assert (RE : rel e (- val r * val t) (Rabs (val r * val t)) (101/100) e0).
  { apply (rel_fl _ _ _ _ 0 0 _ _ NM VM); try lra; [right; replace (- val r * val t) with (- (val r * val t)) by ring; apply Rabs_Ropp|rewrite Rminus_eq_0, Rabs_R0; lra]. }
  destruct RE as (FE & EB & EE).
  assert (E7 : Rabs (val e) <= 700).
  { replace (val e) with (- val r * val t + (val e - - val r * val t)) by ring. eapply Rle_trans; [apply Rabs_triang|]. unfold u0, e0 in EE. lra. }
  destruct (AE e FE E7) as [FF AF].
  assert (W1 : within (1001/1000000000000000000) (val (fexp e)) (exp (val e))).
  { apply (within_close (1/1000000000000000)); try lra. apply exp_pos. }
  pose proof (within_trans _ _ _ _ _ (exp_pos _) W1 (within_exp _ _ _ EE)) as W2. fold D in W2.
  split; [exact FF|]. split; [apply Rabs_le_inv in EB; unfold D; split; apply exp_mono; lra|].
  apply within_abs; [unfold u0, e0; lra|apply exp_pos|exact W2].
Qed.

(** ** Payoffs of bounded variation *)
Lemma terminal_inexact : forall fexp flog p x V, finite x -> 0 < val x <= exp 200 -> ordinary_strikes p -> payoff_variation (payoff_of p) V ->
  exists y, payoff1 (num := B64 fexp flog) p x = Ok y /\ inexact (26/100000000000000000) y (terminal (payoff_of p) (val x), V).
Proof.
  intros fexp flog p x V FX XB OS PV. pose proof (exp_pos (- 200)) as EP.
  assert (E1 : exp (- 200) <= 1 <= exp 200) by (split; (rewrite <- exp_0; apply exp_mono; lra)).
  assert (E5 : exp 200 + exp 200 <= exp 205). { replace 205 with (200 + 5) by lra. rewrite exp_plus. pose proof (exp_ineq1_le 5). pose proof (exp_pos 200). nra. }
  destruct zero_fin as [F0 V0]. destruct one_fin as [F1 V1].
  assert (BIN : forall (b : bool) V', 1 <= V' <= 2 ->
    inexact (26/100000000000000000) (if b then b64_ofZ 1 else b64_ofZ 0) (if b then 1 else 0, V')).
  { intros b V' B'. unfold inexact. cbn [fst snd]. destruct b; rewrite ?V0, ?V1; repeat split; try assumption; try lra; rewrite Rminus_eq_0, Rabs_R0; lra. }
  destruct p as [ty K|ty K|KL KU|ty]; cbn [payoff_of ordinary_strikes payoff_variation] in *; [| | |easy].
  - assert (T : ty <> Call /\ V = val K) by (destruct ty; cbn in PV; easy). destruct T as (NC & ->). destruct OS as (FK & KB).
    eexists. split; [reflexivity|]. assert (TY : PayoffType_eqb ty Call = false) by (destruct ty; easy). rewrite TY. cbn [terminal].
    assert (VT : vanilla ty (val K) (val x) = Rmax (val K - val x) 0) by (destruct ty; easy). rewrite VT. unfold ordinary_price in KB.
    destruct (diff_inexact 0 K x (val K) (val x) ltac:(lra) FK FX ltac:(lra) ltac:(lra) ltac:(lra)
      ltac:(rewrite Rminus_eq_0, Rabs_R0; lra) ltac:(rewrite Rminus_eq_0, Rabs_R0; lra)) as (FY & Y0 & Y1 & Y2 & Y3). cbn [fst snd] in *.
    change (nmax (num := B64 fexp flog) (nsub (Num := B64 fexp flog) K x) (@n0 b64 (B64 fexp flog))) with (nmax (num := B64_basic) (b64_sub K x) n0).
    split; [exact FY|]. split; [exact Y0|]. cbn [fst snd]. split; [|split; [lra|]].
    + split; [apply Y1|]. unfold Rmax. destruct (Rle_dec (val K - val x) 0); lra.
    + destruct (Rle_dec (val x) (val K)) as [L|L].
      * eapply Rle_trans; [exact Y3|]. assert (val K + val x <= 2 * val K) by lra. lra.
      * destruct (val_sub K x FK FX) as [NN VS]. destruct (max0_val _ NN) as [_ VM].
        assert (Z : val (nmax (num := B64_basic) (b64_sub K x) n0) = 0).
        { rewrite VM. apply Rmax_left. rewrite VS. unfold fl. pose proof (rnd_le (val K - val x) 0 ltac:(lra)) as RL. rewrite rnd_0 in RL.
          unfold clamp. pose proof big_INF. repeat destruct (Rlt_dec _ _); repeat destruct (Rle_dec _ _); try lra. unfold Rmax, Rmin. repeat destruct (Rle_dec _ _); lra. }
        rewrite Z, Rmax_right by lra. rewrite Rminus_eq_0, Rabs_R0. lra.
  - destruct OS as (FK & KB). assert (V = 1) as -> by (destruct ty; exact PV). eexists. split; [reflexivity|].
    assert (TY : ty = Call \/ PayoffType_eqb ty Call = false /\ terminal (PDigital ty (val K)) (val x) = if Rlt_dec (val x) (val K) then 1 else 0) by (destruct ty; auto).
    destruct TY as [->|(-> & ->)].
    + cbn [PayoffType_eqb terminal]. change (nltb (Num := B64 fexp flog) K x) with (b64_ltb K x). rewrite ltb_val by (now apply finite_notnan).
      replace (if Rlt_dec (val K) (val x) then 1 else 0) with (if Rlt_bool (val K) (val x) then 1 else 0) by (destruct (Rlt_bool_spec (val K) (val x)), (Rlt_dec (val K) (val x)); lra).
      apply BIN. lra.
    + change (nltb (Num := B64 fexp flog) x K) with (b64_ltb x K). rewrite ltb_val by (now apply finite_notnan).
      replace (if Rlt_dec (val x) (val K) then 1 else 0) with (if Rlt_bool (val x) (val K) then 1 else 0) by (destruct (Rlt_bool_spec (val x) (val K)), (Rlt_dec (val x) (val K)); lra).
      apply BIN. lra.
  - destruct OS as (FK & KB & FU & UB'). cbn in PV. subst V. eexists. split; [reflexivity|]. cbn [terminal].
    change (nleb (Num := B64 fexp flog) KL x) with (b64_leb KL x). change (nleb (Num := B64 fexp flog) x KU) with (b64_leb x KU).
    rewrite !leb_val by (now apply finite_notnan).
    replace (if Rle_dec (val KL) (val x) then if Rle_dec (val x) (val KU) then 1 else 0 else 0) with (if Rle_bool (val KL) (val x) && Rle_bool (val x) (val KU) then 1 else 0).
    + apply BIN. lra.
    + destruct (Rle_bool_spec (val KL) (val x)), (Rle_bool_spec (val x) (val KU)), (Rle_dec (val KL) (val x)), (Rle_dec (val x) (val KU)); cbn; lra.
Qed.
