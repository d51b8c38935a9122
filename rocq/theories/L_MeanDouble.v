(** Rounding error of a discounted mean whose summands are themselves inexact. *)
From Coq Require Import List ZArith Reals Lra Lia Bool Psatz.
From Flocq Require Import Core BinarySingleNaN.
From Verif Require Import M_Num S_Double S_Order S_Model S_MonteCarlo S_GbmDouble L_B64 L_Order L_McRound L_Near L_GbmDouble.
Import ListNotations.
Local Open Scope R_scope.

Lemma fmt_scaled : forall k e, (Z.abs k < 2 ^ 53)%Z -> (-1074 <= e)%Z -> rnd (IZR k * bpow radix2 e) = IZR k * bpow radix2 e.
Proof.
  intros k e K E. apply round_generic; [apply valid_rnd_N|]. apply generic_format_FLT. exists (Float radix2 k e); [reflexivity|exact K|exact E].
Qed.
Lemma fl_scaled : forall r k e, 0 <= r <= IZR k * bpow radix2 e -> (0 <= k < 2 ^ 31)%Z -> (-1074 <= e <= 900)%Z ->
  0 <= fl r <= IZR k * bpow radix2 e /\ fl r < INF.
Proof.
  intros r k e R K E.
  assert (L : IZR k * bpow radix2 e < INF).
  { unfold INF. apply Rle_lt_trans with (bpow radix2 31 * bpow radix2 e); [|rewrite <- bpow_plus; apply bpow_lt; lia].
    apply Rmult_le_compat_r; [apply bpow_ge_0|]. change (bpow radix2 31) with 2147483648. apply IZR_le. lia. }
  assert (Q : fl r <= IZR k * bpow radix2 e).
  { eapply Rle_trans; [apply fl_le; apply (proj2 R)|]. unfold fl. rewrite fmt_scaled by lia. pose proof INF_pos.
    rewrite clamp_id; lra. }
  split; [split; [apply fl_nonneg; lra|exact Q]|lra].
Qed.
Lemma sum_scaled : forall l a k e, (0 <= k)%Z -> (k + Z.of_nat (length l) < 2 ^ 31)%Z -> (-1074 <= e <= 900)%Z ->
  Forall (fun x => finite x /\ 0 <= val x <= bpow radix2 e) l -> finite a -> 0 <= val a <= IZR k * bpow radix2 e ->
  finite (fold_left b64_add l a) /\ 0 <= val (fold_left b64_add l a) <= IZR (k + Z.of_nat (length l)) * bpow radix2 e.
Proof.
  induction l as [|x l IH]; intros a k e K LK E F FA VA; cbn [fold_left length].
  - rewrite Z.add_0_r. auto.
  - inversion F as [|? ? [FX VX] F']; subst. cbn [length] in LK. destruct (val_add a x FA FX) as [NN V].
    destruct (fl_scaled (val a + val x) (k + 1) e) as [B BI]; [rewrite plus_IZR; lra|lia|lia|]. rewrite <- V in B, BI.
    assert (FAX : finite (b64_add a x)) by (apply finite_of_val; [exact NN|pose proof INF_pos; lra]).
    destruct (IH (b64_add a x) (k + 1)%Z e ltac:(lia) ltac:(lia) E F' FAX B) as [Q1 Q2].
    split; [exact Q1|]. replace (k + Z.of_nat (Datatypes.S (length l)))%Z with (k + 1 + Z.of_nat (length l))%Z by lia. exact Q2.
Qed.

(** [x] is a payoff of size at most [m] computed with error [kappa m]. *)
Definition inexact (kappa : R) (x : b64) (pm : R * R) : Prop :=
  finite x /\ 0 <= val x /\ 0 <= fst pm <= snd pm /\ exp (- 200) <= snd pm <= exp 205 /\ Rabs (val x - fst pm) <= kappa * snd pm.

Lemma Rsum_cons : forall x l, Rsum (x :: l) = x + Rsum l.
Proof. reflexivity. Qed.
Lemma inexact_sums : forall kappa l pms, Forall2 (inexact kappa) l pms ->
  Rabs (Rsum (map val l) - Rsum (map fst pms)) <= kappa * Rsum (map snd pms) /\ 0 <= Rsum (map fst pms) <= Rsum (map snd pms) /\
  INR (length l) * exp (- 200) <= Rsum (map snd pms) /\ 0 <= Rsum (map val l).
Proof.
  intros kappa l pms F. induction F as [|x [p m] l pms (_ & X0 & PM & MB & E) _ (A & B & C & D)].
  - cbn. rewrite Rminus_eq_0, Rabs_R0. lra.
  - cbn [map length fst snd] in *. rewrite !Rsum_cons, S_INR. repeat split; try lra.
    replace (val x + Rsum (map val l) - (p + Rsum (map fst pms))) with ((val x - p) + (Rsum (map val l) - Rsum (map fst pms))) by ring.
    eapply Rle_trans; [apply Rabs_triang|]. lra.
Qed.
Lemma small_abs : bpow radix2 (-1074) <= 1/100000000000000000000 * exp (- 400).
Proof.
  pose proof exp_low as H.
  assert (B : bpow radix2 (-1074) = bpow radix2 (-174) * bpow radix2 (-900)) by (rewrite <- bpow_plus; reflexivity).
  pose proof (bpow_gt_0 radix2 (-900)). assert (C : bpow radix2 (-174) <= 1/1000000000000000000000000000000).
  { pose proof (bpow_le radix2 (-174) (-100) ltac:(lia)) as Q. change (bpow radix2 (-100)) with (/ 1267650600228229401496703205376) in Q. lra. }
  pose proof (bpow_gt_0 radix2 (-174)). rewrite B. nra.
Qed.

Lemma mean_inexact : forall N df D delta kappa l pms, (1 <= N <= 2147483647)%Z -> length l = Z.to_nat N -> Forall2 (inexact kappa) l pms ->
  0 <= kappa <= 1/100 -> 0 <= delta <= 1/100 -> finite df -> exp (- 200) <= D <= exp 200 -> Rabs (val df - D) <= delta * D ->
  let v := b64_mul (b64_div (fold_left b64_add l (b64_ofZ 0)) (b64_ofZ N)) df in
  finite v /\ Rabs (val v - D * Rmean (map fst pms)) <=
    (102/100 * kappa + 102/100 * delta + 23/100000000000000000 * IZR (N + 2)) * (D * Rmean (map snd pms)).
Proof.
  intros N df D delta kappa l pms LN LL F KB DB FD DR DE v.
  assert (D0 : 0 < D) by (pose proof (exp_pos (- 200)); lra). assert (NP : 1 <= IZR N) by (apply IZR_le; lia).
  assert (DF : 99/100 * D <= val df <= 101/100 * D) by (apply Rabs_le_inv in DE; split; nra).
  (* every operand is finite *)
  assert (FL : Forall (fun x => finite x /\ 0 <= val x <= bpow radix2 412) l).
  { clear - F KB. induction F as [|x [p m] l pms (FX & X0 & PM & MB & E) _ IH]; constructor; [|exact IH]. split; [exact FX|]. split; [exact X0|].
    cbn [fst snd] in *. apply Rabs_le_inv in E. apply Rle_trans with (exp 206); [|exact (exp_Z_bpow 206 ltac:(lia))].
    replace 206 with (205 + 1) by lra. rewrite exp_plus. pose proof (exp_ineq1_le 1). pose proof (exp_pos 205). assert (m <= exp 205) by lra.
    assert (0 <= m) by lra. assert (val x <= 101/100 * m) by nra. nra. }
  assert (F0 : finite (b64_ofZ 0) /\ val (b64_ofZ 0) = 0) by (apply ofZ_fmt; lia). destruct F0 as [F0 V0].
  destruct (sum_scaled l (b64_ofZ 0) 0 412 ltac:(lia) ltac:(rewrite LL, Z2Nat.id; lia) ltac:(lia) FL F0 ltac:(rewrite V0; lra)) as [FS VS].
  rewrite LL, Z2Nat.id, Z.add_0_l in VS by lia. set (s := fold_left b64_add l (b64_ofZ 0)) in *.
  destruct (ofZ_fmt N ltac:(lia)) as [FN VN]. destruct (val_div s _ FS FN ltac:(rewrite VN; lra)) as [NN1 V1]. rewrite VN in V1.
  assert (Q1 : 0 <= val s / IZR N <= IZR 1 * bpow radix2 412).
  { split; [apply Rmult_le_pos; [lra|left; apply Rinv_0_lt_compat; lra]|]. apply (Rmult_le_reg_r (IZR N)); [lra|]. unfold Rdiv. rewrite Rmult_assoc, Rinv_l by lra. lra. }
  destruct (fl_scaled _ _ _ Q1 ltac:(lia) ltac:(lia)) as [B1 I1]. rewrite <- V1 in B1, I1. pose proof INF_pos as IP.
  assert (FQ : finite (b64_div s (b64_ofZ N))) by (apply finite_of_val; [exact NN1|lra]).
  destruct (val_mul _ _ FQ FD) as [NN2 V2].
  assert (DH : val df <= bpow radix2 402).
  { apply Rle_trans with (exp 201); [|exact (exp_Z_bpow 201 ltac:(lia))]. replace 201 with (200 + 1) by lra. rewrite exp_plus. pose proof (exp_ineq1_le 1). pose proof (exp_pos 200). nra. }
  assert (Q2 : 0 <= val (b64_div s (b64_ofZ N)) * val df <= IZR 1 * bpow radix2 814).
  { split; [apply Rmult_le_pos; lra|]. rewrite Rmult_1_l. replace (bpow radix2 814) with (bpow radix2 412 * bpow radix2 402) by (rewrite <- bpow_plus; reflexivity). apply Rmult_le_compat; lra. }
  destruct (fl_scaled _ _ _ Q2 ltac:(lia) ltac:(lia)) as [B2 I2]. rewrite <- V2 in B2, I2. fold v in B2, I2, NN2, V2.
  assert (FV : finite v) by (apply finite_of_val; [exact NN2|lra]). split; [exact FV|].
  (* the averaging *)
  assert (NNL : Forall nonneg l) by (clear - FL; induction FL as [|x l [_ X] _ IH]; constructor; [intros _; lra|exact IH]).
  destruct (mean_error N df l LN LL NNL ltac:(intros _; lra) FV) as (_ & _ & _ & ME). fold s in ME. fold v in ME.
  assert (LP : length pms = length l) by (clear - F; induction F; cbn; congruence).
  destruct (inexact_sums _ _ _ F) as (S1 & S2 & S3 & S4).
  assert (NL : INR (length l) = IZR N) by (rewrite LL, INR_IZR_INZ, Z2Nat.id by lia; reflexivity).
  unfold Rmean in *. rewrite !map_length in *. rewrite LP, NL in *. assert (IN : 0 < / IZR N) by (apply Rinv_0_lt_compat; lra).
  assert (X1 : Rabs (Rsum (map val l) / IZR N - Rsum (map fst pms) / IZR N) <= kappa * (Rsum (map snd pms) / IZR N)).
  { replace (Rsum (map val l) / IZR N - Rsum (map fst pms) / IZR N) with ((Rsum (map val l) - Rsum (map fst pms)) * / IZR N) by (field; lra).
    rewrite Rabs_mult, (Rabs_pos_eq (/ IZR N)) by lra. unfold Rdiv. rewrite <- Rmult_assoc. apply Rmult_le_compat_r; lra. }
  assert (X2 : 0 <= Rsum (map fst pms) / IZR N <= Rsum (map snd pms) / IZR N) by (unfold Rdiv; split; [apply Rmult_le_pos; lra|apply Rmult_le_compat_r; lra]).
  assert (X3 : exp (- 200) <= Rsum (map snd pms) / IZR N).
  { apply (Rmult_le_reg_l (IZR N)); [lra|]. replace (IZR N * (Rsum (map snd pms) / IZR N)) with (Rsum (map snd pms)) by (field; lra). exact S3. }
  assert (X4 : 0 <= Rsum (map val l) / IZR N) by (apply Rmult_le_pos; lra).
  set (a := Rsum (map val l) / IZR N) in *. set (p := Rsum (map fst pms) / IZR N) in *. set (m := Rsum (map snd pms) / IZR N) in *.
  assert (NB : IZR (N + 1) <= 2147483648) by (apply IZR_le; lia). assert (NB0 : 0 <= IZR (N + 1)) by (apply IZR_le; lia).
  assert (N2 : IZR (N + 2) = IZR (N + 1) + 1) by (rewrite !plus_IZR; lra). rewrite N2. pose proof small_abs as SM.
  pose proof (bpow_gt_0 radix2 (-1074)) as BP.
  change (bpow radix2 (-52)) with (/ 4503599627370496) in ME.
  clearbody a p m v. set (n := IZR (N + 1)) in *. clearbody n. set (d := val df) in *. clearbody d. set (w := val v) in *. clearbody w.
  set (tiny := bpow radix2 (-1074)) in *. clearbody tiny. clear - KB DB DE DF D0 ME X1 X2 X3 X4 NB NB0 SM BP DR.
  apply Rabs_le_inv in X1. apply Rabs_le_inv in DE. pose proof (exp_pos (- 200)) as EP.
  assert (E4 : exp (- 400) = exp (- 200) * exp (- 200)) by (rewrite <- exp_plus; f_equal; lra).
  assert (DM : exp (- 400) <= D * m) by (rewrite E4; apply Rmult_le_compat; lra).
  assert (M0 : 0 < m) by lra. assert (DM0 : 0 < D * m) by now apply Rmult_lt_0_compat.
  assert (A1 : a <= 101/100 * m) by nra.
  assert (K1 : Rabs (d * a - D * p) <= (101/100 * kappa + 102/100 * delta) * (D * m)).
  { replace (d * a - D * p) with ((d - D) * a + D * (a - p)) by ring. eapply Rle_trans; [apply Rabs_triang|]. rewrite !Rabs_mult, (Rabs_pos_eq D), (Rabs_pos_eq a) by lra.
    assert (Y1 : Rabs (d - D) * a <= delta * D * (101/100 * m)) by (apply Rmult_le_compat; [apply Rabs_pos|lra|apply Rabs_le; lra|lra]).
    assert (Y2 : D * Rabs (a - p) <= D * (kappa * m)) by (apply Rmult_le_compat_l; [lra|apply Rabs_le; lra]).
    assert (0 <= delta * (D * m)) by (apply Rmult_le_pos; lra). assert (0 <= kappa * (D * m)) by (apply Rmult_le_pos; lra). lra. }
  assert (K2 : d * a <= 103/100 * (D * m)).
  { apply Rle_trans with ((101/100 * D) * (101/100 * m)); [apply Rmult_le_compat; lra|]. lra. }
  assert (K3 : n * / 4503599627370496 * (d * a) <= n * / 4503599627370496 * (103/100 * (D * m))) by (apply Rmult_le_compat_l; lra).
  assert (E1 : exp (- 400) <= exp (- 200) * 1). { rewrite E4. apply Rmult_le_compat_l; [lra|]. rewrite <- exp_0. apply exp_mono; lra. }
  assert (K4 : tiny * (1 + d) <= 1/10000000000000000000 * (D * m)).
  { assert (T1 : tiny * 1 <= 1/100000000000000000000 * (D * m)) by lra.
    assert (T2 : tiny * d <= (1/100000000000000000000 * m) * (101/100 * D)) by (apply Rmult_le_compat; lra). lra. }
  replace (w - D * p) with ((w - d * a) + (d * a - D * p)) by ring. eapply Rle_trans; [apply Rabs_triang|].
  assert (0 <= n * (D * m)) by (apply Rmult_le_pos; lra). assert (0 <= kappa * (D * m)) by (apply Rmult_le_pos; lra). lra.
Qed.
