(** What a pricer without early exercise computes on an inexact path. *)
From Coq Require Import List ZArith Reals Lra Lia Bool Psatz.
From Flocq Require Import Core BinarySingleNaN.
From Verif Require Import M_Num M_Outcome M_Payoff M_Option M_MonteCarlo M_Builder S_Double S_Order S_Model S_MonteCarlo S_McPaths S_GbmDouble
  L_B64 L_Order L_Payoff L_MonteCarlo L_McRound L_Near L_GbmDouble L_MeanDouble.
Import ListNotations.
Local Open Scope R_scope.

Definition pair_ok (L : R) (a : b64) (x : R) : Prop := finite a /\ ordinary_price x /\ within L (val a) x.
Lemma ord_pos : forall x, ordinary_price x -> 0 < x.
Proof. intros x [A _]. pose proof (exp_pos (- 200)). lra. Qed.
Lemma pair_weak : forall L L' a x, L <= L' -> pair_ok L a x -> pair_ok L' a x.
Proof. intros L L' a x H (F & O & W). split; [easy|]. split; [easy|]. eapply within_weak; [now apply ord_pos|exact H|exact W]. Qed.

Section B64.
Variables (fexp flog : b64 -> b64).
Local Instance dbl : Num b64 := B64 fexp flog.

Lemma pair_min : forall L a b x y, pair_ok L a x -> pair_ok L b y -> pair_ok L (nmin a b) (Rmin x y).
Proof.
  intros L a b x y (FA & OX & WA) (FB & OY & WB). pose proof (ord_pos x OX) as X0. pose proof (ord_pos y OY) as Y0.
  assert (OM : ordinary_price (Rmin x y)) by (unfold Rmin; destruct (Rle_dec x y); easy).
  destruct WA as [A1 A2], WB as [B1 B2]. pose proof (exp_pos L). pose proof (exp_pos (- L)).
  unfold nmin. change (@nltb b64 dbl b a) with (b64_ltb b a). rewrite ltb_val by (now apply finite_notnan).
  destruct (Rlt_bool_spec (val b) (val a)); (split; [easy|split; [easy|]]); unfold within, Rmin; destruct (Rle_dec x y); split; nra.
Qed.
Lemma pair_max : forall L a b x y, pair_ok L a x -> pair_ok L b y -> pair_ok L (nmax a b) (Rmax x y).
Proof.
  intros L a b x y (FA & OX & WA) (FB & OY & WB). pose proof (ord_pos x OX) as X0. pose proof (ord_pos y OY) as Y0.
  assert (OM : ordinary_price (Rmax x y)) by (unfold Rmax; destruct (Rle_dec x y); easy).
  destruct WA as [A1 A2], WB as [B1 B2]. pose proof (exp_pos L). pose proof (exp_pos (- L)).
  unfold nmax. change (@nltb b64 dbl a b) with (b64_ltb a b). rewrite ltb_val by (now apply finite_notnan).
  destruct (Rlt_bool_spec (val a) (val b)); (split; [easy|split; [easy|]]); unfold within, Rmax; destruct (Rle_dec x y); split; nra.
Qed.
Lemma finite_eqb : forall a, finite a -> b64_eqb a a = true.
Proof. intros a F. apply eqb_true_iff. repeat split; now apply finite_notnan. Qed.

Lemma fold_min : forall L p xs a x, Forall2 (pair_ok L) p xs -> pair_ok L a x ->
  exists b, fold_left min_from p (Some a) = Some b /\ pair_ok L b (fold_right Rmin x xs).
Proof.
  intros L p xs a x F. rewrite <- (fold_symmetric Rmin ltac:(intros; apply Rmin_assoc) x ltac:(intros; apply Rmin_comm)).
  revert a x. induction F as [|c y p xs C F IH]; intros a x A; cbn [fold_left]; [now exists a|].
  cbn [min_from]. apply IH. now apply pair_min.
Qed.
Lemma fold_max : forall L p xs a x, Forall2 (pair_ok L) p xs -> pair_ok L a x ->
  exists b, fold_left max_from p (Some a) = Some b /\ pair_ok L b (fold_right Rmax x xs).
Proof.
  intros L p xs a x F. rewrite <- (fold_symmetric Rmax ltac:(intros; apply Rmax_assoc) x ltac:(intros; apply Rmax_comm)).
  revert a x. induction F as [|c y p xs C F IH]; intros a x A; cbn [fold_left]; [now exists a|].
  cbn [max_from]. apply IH. now apply pair_max.
Qed.
Lemma pair_lowest : forall L p xs, p <> [] -> Forall2 (pair_ok L) p xs -> pair_ok L (lowest p) (lmin xs).
Proof.
  intros L p xs NE F0. destruct p as [|a p']; [easy|]. inversion F0 as [|? x ? xs' A F]; subst. unfold lowest, lmin. cbn [fold_left min_from].
  change (@neqb b64 dbl a a) with (b64_eqb a a). rewrite (finite_eqb a) by apply A. destruct (fold_min L p' xs' a x F A) as (b & E & B). rewrite E. exact B.
Qed.
Lemma pair_highest : forall L p xs, p <> [] -> Forall2 (pair_ok L) p xs -> pair_ok L (highest p) (lmax xs).
Proof.
  intros L p xs NE F0. destruct p as [|a p']; [easy|]. inversion F0 as [|? x ? xs' A F]; subst. unfold highest, lmax. cbn [fold_left max_from].
  change (@neqb b64 dbl a a) with (b64_eqb a a). rewrite (finite_eqb a) by apply A. destruct (fold_max L p' xs' a x F A) as (b & E & B). rewrite E. exact B.
Qed.
Lemma pair_final : forall L p xs, p <> [] -> Forall2 (pair_ok L) p xs -> pair_ok L (final p) (last xs 0).
Proof.
  intros L p xs NE F. unfold final. induction F as [|a x p xs A F IH]; [easy|]. destruct F as [|b y p xs B F]; [exact A|].
  change (last (a :: b :: p) n0) with (last (b :: p) n0). change (last (x :: y :: xs) 0) with (last (y :: xs) 0). now apply IH.
Qed.
End B64.

(** ** The arithmetic mean *)
Lemma Rsum_bounds : forall l a b, Forall (fun x => a <= x <= b) l -> INR (length l) * a <= Rsum l <= INR (length l) * b.
Proof.
  intros l a b F. induction F as [|x l X F IH]; [cbn; lra|]. rewrite Rsum_cons. cbn [length]. rewrite S_INR. lra.
Qed.
Lemma pair_average : forall fexp flog L p xs, p <> [] -> (Z.of_nat (length p) <= 2147483647)%Z -> L <= 1 -> Forall2 (pair_ok L) p xs ->
  pair_ok (L + 25/100000000000000000 * INR (length p)) (average (num := B64 fexp flog) Arithmetic p) (Rmean xs).
Proof.
  intros fexp flog L p xs NE LP L1 F. unfold average. cbn [nadd ndiv nofZ B64 n0 B64_basic].
  change (@nofZ b64 (B64 fexp flog) (Z.of_nat (length p))) with (b64_ofZ (Z.of_nat (length p))).
  set (n := Z.of_nat (length p)) in *. assert (N1 : (1 <= n)%Z) by (unfold n; destruct p; [easy|cbn; lia]).
  assert (LX : length xs = length p) by (clear - F; induction F; cbn; congruence).
  assert (NR : INR (length p) = IZR n) by (unfold n; apply INR_IZR_INZ).
  assert (FX : Forall (fun x => exp (- 200) <= x <= exp 200) xs) by (clear - F; induction F as [|a x p xs (_ & O & _) _ IH]; constructor; [exact O|exact IH]).
  pose proof (Rsum_bounds _ _ _ FX) as SB. rewrite LX, NR in SB. assert (NP : 1 <= IZR n) by (apply IZR_le; lia).
  assert (SW : within L (Rsum (map val p)) (Rsum xs)).
  { clear - F. induction F as [|a x p xs (_ & _ & W) F IH]; [unfold within; cbn; lra|]. cbn [map]. rewrite !Rsum_cons. unfold within in *. lra. }
  assert (FL : Forall (fun a => finite a /\ 0 <= val a <= bpow radix2 402) p).
  { clear - F L1. induction F as [|a x p xs (FA & O & W) F IH]; constructor; [|exact IH]. split; [exact FA|]. pose proof (within_pos _ _ _ (ord_pos x O) W) as A0.
    split; [lra|]. apply Rle_trans with (exp 201); [|exact (exp_Z_bpow 201 ltac:(lia))]. replace 201 with (200 + 1) by lra. rewrite exp_plus. destruct W as [_ W]. eapply Rle_trans; [exact W|].
    pose proof (exp_mono L 1 L1). pose proof (exp_pos L). destruct O. pose proof (ord_pos x (conj H1 H2)). apply Rmult_le_compat; lra. }
  assert (F0 : finite (b64_ofZ 0) /\ val (b64_ofZ 0) = 0) by (apply ofZ_fmt; lia). destruct F0 as [F0 V0].
  destruct (sum_scaled p (b64_ofZ 0) 0 402 ltac:(lia) ltac:(lia) ltac:(lia) FL F0 ltac:(rewrite V0; lra)) as [FS _].
  assert (NNL : Forall nonneg p) by (clear - FL; induction FL as [|x l [_ X] _ IH]; constructor; [intros _; lra|exact IH]).
  destruct (sum0_error p NE NNL FS) as [_ SE]. set (s := fold_left b64_add p (b64_ofZ 0)) in *.
  assert (SP : 0 < Rsum xs). { pose proof (exp_pos (- 200)). assert (0 < IZR n * exp (- 200)) by (apply Rmult_lt_0_compat; lra). lra. }
  pose proof (within_pos _ _ _ SP SW) as VP.
  assert (SI : within (1205/10000000000000000000 * IZR n) (val s) (Rsum (map val p))).
  { set (k := (length p - 1)%nat) in *. assert (KN : INR k <= IZR n) by (rewrite <- NR; apply le_INR; unfold k; lia). pose proof (pos_INR k) as K0.
    pose proof uu_u0 as UU. pose proof uu_pos as UP.
    assert (Kb : INR k * uu <= 1/1000000). { apply Rle_trans with (2147483647 * u0); [apply Rmult_le_compat; try lra|unfold u0; lra]. apply Rle_trans with (IZR n); [lra|]. apply IZR_le; lia. }
    pose proof (pow_down k) as PD. set (q := INR k * uu) in *. assert (Q0 : 0 <= q) by (apply Rmult_le_pos; lra).
    assert (QN : q <= 12/100000000000000000 * IZR n) by (unfold q; replace (12/100000000000000000) with u0 by reflexivity; rewrite (Rmult_comm u0); apply Rmult_le_compat; lra).
    assert (PU : (1 + uu) ^ k <= exp q).
    { unfold q. clear. induction k as [|k IH]; [cbn; rewrite Rmult_0_l, exp_0; lra|]. cbn [pow]. rewrite S_INR. replace ((INR k + 1) * uu) with (uu + INR k * uu) by ring. rewrite exp_plus.
      pose proof uu_pos. apply Rmult_le_compat; [lra|apply pow_le; lra|apply exp_ineq1_le|exact IH]. }
    split.
    - eapply Rle_trans; [|exact (proj1 SE)]. apply Rmult_le_compat_l; [lra|]. eapply Rle_trans; [|exact PD].
      assert (W : within (1001/1000 * q) (1 - q) 1). { apply (within_close q); [lra|lra| |nra]. replace (1 - q - 1) with (- q) by ring. rewrite Rabs_Ropp, Rabs_pos_eq; lra. }
      destruct W as [W _]. rewrite Rmult_1_l in W. eapply Rle_trans; [|exact W]. apply exp_mono. lra.
    - eapply Rle_trans; [exact (proj2 SE)|]. apply Rmult_le_compat_l; [lra|]. eapply Rle_trans; [exact PU|]. apply exp_mono. lra. }
  destruct (ofZ_fmt n ltac:(lia)) as [FN VN]. destruct (val_div s _ FS FN ltac:(rewrite VN; lra)) as [NN1 V1]. rewrite VN in V1.
  assert (IN : 0 < / IZR n) by (apply Rinv_0_lt_compat; lra).
  assert (RM : Rmean xs = Rsum xs / IZR n) by (unfold Rmean; now rewrite LX, NR). 
  assert (OM : ordinary_price (Rmean xs)).
  { rewrite RM. unfold ordinary_price, Rdiv. split; apply (Rmult_le_reg_r (IZR n)); try lra; rewrite Rmult_assoc, Rinv_l by lra; lra. }
  pose proof (within_trans _ _ _ _ _ SP SI SW) as WS.
  assert (NB : IZR n <= 2147483647) by (apply IZR_le; lia).
  assert (WQ : within (1205/10000000000000000000 * IZR n + L) (val s / IZR n) (Rmean xs)).
  { rewrite RM. destruct WS as [W1 W2]. set (M := 1205/10000000000000000000 * IZR n + L) in *. clearbody M. unfold within.
    replace (Rsum xs / IZR n * exp (- M)) with (Rsum xs * exp (- M) / IZR n) by (field; lra). replace (Rsum xs / IZR n * exp M) with (Rsum xs * exp M / IZR n) by (field; lra).
    unfold Rdiv. split; apply Rmult_le_compat_r; lra. }
  destruct (rnd_within _ _ NN1 V1 (midrange_within (1205/10000000000000000000 * IZR n + L) _ _ ltac:(lra) OM WQ)) as [FR WR].
  split; [exact FR|]. split; [exact OM|].
  refine (within_weak _ _ _ _ (ord_pos _ OM) _ (within_trans _ _ _ _ _ (ord_pos _ OM) WR WQ)). rewrite NR. lra.
Qed.

(** ** The payoff *)
Lemma within_abs : forall L a x, 0 <= L <= 1/100 -> 0 < x -> within L a x -> Rabs (a - x) <= 102/100 * L * x.
Proof.
  intros L a x LB X [A B]. pose proof (exp_ineq1_le (- L)) as E1. pose proof (exp_pos L) as P.
  assert (E2 : exp (- L) * exp L = 1) by (rewrite <- exp_plus, Rplus_opp_l; apply exp_0).
  assert (E3 : exp L <= 1 + 102/100 * L). { apply Rnot_lt_le. intros C. assert ((1 - L) * exp L <= 1) by nra. nra. }
  apply Rabs_le. split; nra.
Qed.
Lemma diff_inexact : forall L a b x y, 0 <= L <= 1/200 -> finite a -> finite b -> 0 <= x <= exp 200 -> 0 <= y <= exp 200 -> exp (- 200) <= x + y ->
  Rabs (val a - x) <= 102/100 * L * x -> Rabs (val b - y) <= 102/100 * L * y ->
  inexact (102/100 * L + 13/100000000000000000) (nmax (num := B64_basic) (b64_sub a b) n0) (Rmax (x - y) 0, x + y).
Proof.
  intros L a b x y LB FA FB X Y XY EA EB. destruct (val_sub a b FA FB) as [NN V]. destruct (max0_val _ NN) as [N' V'].
  apply Rabs_le_inv in EA. apply Rabs_le_inv in EB. set (m := x + y) in *.
  assert (X5 : exp 200 + exp 200 <= exp 205). { replace 205 with (200 + 5) by lra. rewrite exp_plus. pose proof (exp_ineq1_le 5). pose proof (exp_pos 200). nra. }
  pose proof (exp_pos (- 200)) as EP. assert (M0 : 0 < m) by lra. set (r := val a - val b) in *.
  assert (LX : 0 <= L * x <= L * m) by (split; [apply Rmult_le_pos; lra|apply Rmult_le_compat_l; unfold m; lra]).
  assert (LY : 0 <= L * y <= L * m) by (split; [apply Rmult_le_pos; lra|apply Rmult_le_compat_l; unfold m; lra]).
  assert (LM : L * m <= 1/200 * m) by (apply Rmult_le_compat_r; lra).
  assert (R1 : Rabs (r - (x - y)) <= 102/100 * L * m). { apply Rabs_le. unfold r, m in *. lra. }
  assert (R2 : Rabs r <= 101/100 * m). { apply Rabs_le_inv in R1. apply Rabs_le. unfold m in *. lra. }
  assert (C : Rabs (rnd r - r) <= 125/1000000000000000000 * m).
  { destruct (rnd_error r) as (e & n & E & M & Q). rewrite Q. replace (r * (1 + e) + n - r) with (r * e + n) by ring. eapply Rle_trans; [apply Rabs_triang|]. rewrite Rabs_mult.
    pose proof uu_u0. pose proof eta_low as T. assert (E4 : exp (- 400) <= m). { replace (- 400) with (- 200 + - 200) by lra. rewrite exp_plus.
      assert (exp (- 200) <= 1) by (rewrite <- exp_0; apply exp_mono; lra). nra. }
    assert (T2 : e0 * exp (- 400) <= e0 * m) by (apply Rmult_le_compat_l; [unfold e0; lra|lra]).
    assert (T3 : Rabs r * Rabs e <= (101/100 * m) * u0) by (apply Rmult_le_compat; try apply Rabs_pos; lra). unfold u0, e0 in *. lra. }
  assert (MH : m <= bpow radix2 410) by (pose proof (exp_Z_bpow 205 ltac:(lia)) as Q; change (2 * 205)%Z with 410%Z in Q; change (IZR 205) with 205 in Q; unfold m in *; lra).
  assert (BI : 2 * bpow radix2 410 < INF). { unfold INF. replace (2 * bpow radix2 410) with (bpow radix2 411); [apply bpow_lt; lia|]. change 2 with (bpow radix2 1) at 1. rewrite <- bpow_plus. reflexivity. }
  assert (RI : - INF < rnd r < INF). { apply Rabs_le_inv in C. apply Rabs_le_inv in R2. lra. }
  assert (W : val (b64_sub a b) = rnd r) by (rewrite V; unfold fl; apply clamp_id; lra). rewrite W in V'.
  unfold inexact. cbn [fst snd]. pose proof INF_pos as IP. pose proof (Rmax_l 0 (rnd r)). pose proof (Rmax_r (x - y) 0).
  split; [apply finite_of_val; [exact N'|]; rewrite V'; unfold Rmax; destruct (Rle_dec 0 (rnd r)); lra|]. rewrite V'.
  split; [lra|]. split; [unfold m, Rmax; destruct (Rle_dec (x - y) 0); lra|]. split; [unfold m in *; lra|].
  apply Rabs_le_inv in C. apply Rabs_le_inv in R1. assert (0 <= L * m) by lra. assert (0 < m * (1/200000000000000000)) by lra.
  apply Rabs_le. unfold Rmax. destruct (Rle_dec 0 (rnd r)), (Rle_dec (x - y) 0); lra.
Qed.

(** Every class covered computes its payoff from two numbers near the two exact ones. *)
Lemma pair_abs : forall L a x, 0 <= L <= 1/100 -> pair_ok L a x -> finite a /\ 0 <= x <= exp 200 /\ exp (- 200) <= x /\ Rabs (val a - x) <= 102/100 * L * x.
Proof. intros L a x LB (F & O & W). pose proof (ord_pos x O). destruct O. repeat split; try easy; try lra. now apply within_abs. Qed.
Lemma payoff_inexact : forall fexp flog L c o p xs, accepts c (optKind o) = true -> continuous_option o -> p <> [] -> (Z.of_nat (length p) <= 2147483647)%Z ->
  12/10000000000000000 * INR (length p) <= L <= 1/1000 -> Forall2 (pair_ok L) p xs ->
  exists v, path_payoff (num := B64 fexp flog) c o p = Ok v /\ inexact (124/100 * L + 13/100000000000000000) v (exact_payoff o xs, exchanged o xs).
Proof.
  intros fexp flog L c o p xs A CO NE LP LB F. pose proof (pos_INR (length p)) as N0.
  assert (L0 : 0 <= L <= 1/100) by lra.
  pose proof (pair_abs _ _ _ L0 (pair_final fexp flog L p xs NE F)) as PF.
  pose proof (pair_abs _ _ _ L0 (pair_lowest fexp flog L p xs NE F)) as PL.
  pose proof (pair_abs _ _ _ L0 (pair_highest fexp flog L p xs NE F)) as PH.
  pose proof (pair_average fexp flog L p xs NE LP ltac:(lra) F) as PA. apply (pair_weak _ (121/100 * L)) in PA; [|lra].
  apply pair_abs in PA; [|lra].
  assert (UP : forall t x, 0 <= x -> Rabs t <= 102/100 * L * x -> Rabs t <= 102/100 * (121/100 * L) * x).
  { intros t x X T. assert (0 <= L * x) by (apply Rmult_le_pos; lra). lra. }
  destruct PF as (F1 & F2 & F3 & F4), PL as (L1 & L2 & L3 & L4), PH as (H1 & H2 & H3 & H4), PA as (A1 & A2 & A3 & A4).
  assert (Z0 : forall K, 0 <= K -> Rabs (K - K) <= 102/100 * (121/100 * L) * K).
  { intros K HK. rewrite Rminus_eq_0, Rabs_R0. assert (0 <= L * K) by (apply Rmult_le_pos; lra). lra. }
  assert (WK : forall v pm, inexact (102/100 * (121/100 * L) + 13/100000000000000000) v pm -> inexact (124/100 * L + 13/100000000000000000) v pm).
  { intros v pm (Q1 & Q2 & Q3 & Q4 & Q5). repeat (split; [assumption|]). eapply Rle_trans; [exact Q5|]. apply Rmult_le_compat_r; [lra|]. lra. }
  assert (KC : forall ty a x K, finite K -> 0 <= val K <= exp 200 -> finite a -> 0 <= x <= exp 200 -> exp (- 200) <= x -> Rabs (val a - x) <= 102/100 * (121/100 * L) * x ->
    exists v, payoff1 (num := B64 fexp flog) (PVanilla ty K) a = Ok v /\ inexact (124/100 * L + 13/100000000000000000) v (vanilla ty (val K) x, x + val K)).
  { intros ty a x K FK KB FA XB XL XE. cbn [payoff1]. eexists. split; [reflexivity|].
    assert (I1 := diff_inexact (121/100 * L) a K x (val K) ltac:(lra) FA FK XB KB ltac:(lra) XE (Z0 _ (proj1 KB))).
    assert (I2 := diff_inexact (121/100 * L) K a (val K) x ltac:(lra) FK FA KB XB ltac:(lra) (Z0 _ (proj1 KB)) XE). rewrite (Rplus_comm (val K)) in I2.
    destruct ty; cbn [PayoffType_eqb vanilla]; apply WK; [exact I1|exact I2|exact I2]. }
  assert (KF : forall ty a x b y, finite b -> 0 <= y <= exp 200 -> finite a -> 0 <= x <= exp 200 -> exp (- 200) <= x -> Rabs (val a - x) <= 102/100 * (121/100 * L) * x -> Rabs (val b - y) <= 102/100 * (121/100 * L) * y ->
    exists v, payoff2 (num := B64 fexp flog) (PFloating ty) a b = Ok v /\ inexact (124/100 * L + 13/100000000000000000) v (vanilla ty y x, x + y)).
  { intros ty a x b y FK KB FA XB XL XE YE. cbn [payoff2]. eexists. split; [reflexivity|].
    assert (I1 := diff_inexact (121/100 * L) a b x y ltac:(lra) FA FK XB KB ltac:(lra) XE YE).
    assert (I2 := diff_inexact (121/100 * L) b a y x ltac:(lra) FK FA KB XB ltac:(lra) YE XE). rewrite (Rplus_comm y) in I2.
    destruct ty; cbn [PayoffType_eqb vanilla]; apply WK; [exact I1|exact I2|exact I2]. }
  unfold continuous_option in CO. unfold exact_payoff, exchanged, legs, option_payoff1, option_payoff2, path_payoff.
  destruct c as [|[|]|[|]|[|]|], (optKind o) eqn:KO; try discriminate A; try easy; destruct (optPayoff o) as [ty K|ty K|KL KU|ty] eqn:PO; try easy; try destruct CO as [FK KB];
    unfold option_payoff1, option_payoff2; rewrite PO; cbn [getPayoffType fst snd].
  - apply KC; auto. apply UP; [lra|exact F4].
  - apply KC; auto.
  - destruct ty; (apply KF; auto; apply UP; lra || assumption).
  - destruct ty; (apply KC; auto; apply UP; lra || assumption).
Qed.
