(** Property C38: expectations of simulated prices.  The draws are made explicit through
    [env_list]; [is_Enormal], [is_Enormals] and [is_Epoisson] (S_Prob.v) integrate them
    against the laws the distribution objects stand for. *)
From Coq Require Import String List ZArith Reals Bool Lra Lia.
From Coquelicot Require Import Coquelicot.
From Verif Require Import M_Num M_Outcome M_Dict M_Stock M_Market M_Random M_Model
  S_Market S_Random S_Model S_Prob L_Model L_Gauss L_Martingale.
Import ListNotations.
Local Open Scope R_scope.

(** The density has mass one, so [is_Enormal] is an expectation. *)
Theorem C38_density_total : is_integral phi 1.
Proof.
  pose proof (Enormal_const 1) as H. eapply is_integral_ext; [|exact H]. intros x. cbn. ring.
Qed.
Print Assumptions C38_density_total.

(** ** GBM: after any [n] steps (draws [zs]) the next price has conditional expectation
    (current price) * exp((r - c) dt). *)
Theorem C38_gbm_martingale : forall m w d t n seed zs,
  mdKind m = MGBM -> deref (mdStock m) w = Ok d -> length zs = n -> (Z.of_nat (S n) <= INT_MAX)%Z -> 0 <= t ->
  exists past next, length past = n /\
    (forall z, fst (simulatePrices (env_list (zs ++ [z]) []) m w t (Pseudo_ctor (Z.of_nat (S n)) seed)) = Ok (past ++ [next z])) /\
    is_Enormal next (last past (getPrice d) * exp ((getR w - dividend d) * (t / INR (S n)))).
Proof.
  intros m w d t n seed zs K D L N T. set (dt := t / INR (S n)).
  set (mu := getR w - dividend d - sigma_ d * sigma_ d / 2). set (s := sigma_ d * sqrt dt).
  exists (gbm_solution (S_ d) (getR w) (dividend d) (sigma_ d) dt zs),
         (fun z => last (gbm_solution (S_ d) (getR w) (dividend d) (sigma_ d) dt zs) (S_ d) * exp (mu * dt + s * z)).
  assert (Lg : forall l, length (gbm_solution (S_ d) (getR w) (dividend d) (sigma_ d) dt l) = length l).
  { intros l. unfold gbm_solution. now rewrite map_length, seq_length. }
  split; [now rewrite Lg|]. split.
  - intros z. rewrite (gbm_path m w d t (S n) seed (zs ++ [z]) K D); [|rewrite app_length; cbn; lia|easy].
    f_equal. fold dt. change (mR w) with (getR w).
    unfold gbm_solution. rewrite app_length. cbn [length]. rewrite Nat.add_1_r, seq_S, map_app. cbn [map].
    f_equal.
    + apply map_ext_in. intros k Hk. apply in_seq in Hk. rewrite firstn_app.
      replace (k - length zs)%nat with 0%nat by lia. cbn [firstn]. now rewrite app_nil_r.
    + f_equal. change (1 + length zs)%nat with (S (length zs)). rewrite firstn_all2 by (rewrite app_length; cbn; lia).
      assert (Rs : Rsum (zs ++ [z]) = Rsum zs + z).
      { clear. induction zs as [|x zs IH]; cbn; [lra|]. unfold Rsum in *. rewrite IH. lra. }
      rewrite Rs.
      destruct zs as [|x zs] using rev_ind.
      * cbn [length seq map last]. f_equal. f_equal. unfold mu, s. cbn. lra.
      * clear IHzs. rewrite !app_length. cbn [length]. rewrite Nat.add_1_r, seq_S, map_app. cbn [map]. rewrite last_last.
        change (1 + length zs)%nat with (S (length zs)).
        rewrite (firstn_all2 (n := S (length zs))) by (rewrite app_length; cbn; lia).
        rewrite (Rmult_assoc (S_ d) (exp _) (exp _)), <- exp_plus. f_equal. f_equal. fold s. fold mu. rewrite (S_INR (S (length zs))). ring.
  - change (getPrice d) with (S_ d).
    assert (E : mu * dt + s * s / 2 = (getR w - dividend d) * dt).
    { unfold s, mu. assert (0 <= dt).
      { unfold dt. apply Rmult_le_pos; [easy|]. left. apply Rinv_0_lt_compat. apply lt_0_INR. lia. }
      pose proof (sqrt_sqrt dt H). nra. }
    rewrite <- E. apply Enormal_exp.
Qed.
Print Assumptions C38_gbm_martingale.

Example C38_gbm_ex : mdKind (mkModel "A" 0 (@MGBM R)) = MGBM /\ length [1; -2; 3] = 3%nat /\ (Z.of_nat 4 <= INT_MAX)%Z.
Proof. repeat split. unfold INT_MAX; cbn; lia. Qed.

(** ** Heston: one step, both discretisations, any correlation in [-1, 1]. *)
Theorem C38_heston_martingale : forall kappa theta sigma_v rho v0 disc m w d t seed,
  mdKind m = MHeston kappa theta sigma_v rho v0 disc -> deref (mdStock m) w = Ok d ->
  -1 <= rho <= 1 -> 0 <= t ->
  exists price : list R -> R,
    (forall z1 z2, fst (simulatePrices (env_list [z1; z2] []) m w t (Pseudo_ctor 1 seed)) = Ok [price [z1; z2]]) /\
    is_Enormals 2 price (getPrice d * exp ((getR w - dividend d) * t)).
Proof.
  intros kappa theta sigma_v rho v0 disc m w d t seed K D Rho T.
  set (mu := (mR w - dividend d - Rmax v0 0 / 2) * t). set (s := sqrt (Rmax v0 0 * t)). set (q := sqrt (1 - rho * rho)).
  exists (fun l => S_ d * exp (mu + s * (rho * nth 0 l 0 + q * nth 1 l 0))).
  split.
  - intros z1 z2. rewrite (heston_path kappa theta sigma_v rho v0 disc m w d t seed z1 z2 K D). reflexivity.
  - assert (S2 : s * s = Rmax v0 0 * t) by (apply sqrt_sqrt; apply Rmult_le_pos; [apply Rmax_r|easy]).
    assert (Q2 : q * q = 1 - rho * rho) by (apply sqrt_sqrt; nra).
    cbn [is_Enormals]. exists (fun z1 => S_ d * exp ((mu + (s * q) * (s * q) / 2) + (s * rho) * z1)). split.
    + intros z1. exists (fun z2 => S_ d * exp ((mu + s * rho * z1) + (s * q) * z2)). split.
      * intros z2. cbn [nth]. f_equal. f_equal. ring.
      * replace (mu + s * q * (s * q) / 2 + s * rho * z1) with (mu + s * rho * z1 + s * q * (s * q) / 2) by ring.
        apply Enormal_exp.
    + replace (getPrice d * exp ((getR w - dividend d) * t))
        with (S_ d * exp (mu + s * q * (s * q) / 2 + s * rho * (s * rho) / 2)); [apply Enormal_exp|].
      f_equal. f_equal. change (getR w) with (mR w). unfold mu.
      replace (s * q * (s * q)) with ((s * s) * (q * q)) by ring.
      replace (s * rho * (s * rho)) with ((s * s) * (rho * rho)) by ring. rewrite S2, Q2. field.
Qed.
Print Assumptions C38_heston_martingale.

(** ** Merton: exact one-step expectation. *)
Definition is_Emerton (lambda muJ sigmaJ : R) (m : StockModel R) (w : Market R) (t : R) (seed : Z) (e : R) : Prop :=
  exists mean : nat -> R,
    (forall n, exists price : list R -> R,
       (forall z l, length l = n ->
          fst (simulatePrices (env_list (z :: 0 :: map (fun x => muJ + sigmaJ * x) l) [0%Z; Z.of_nat n])
                 m w t (Pseudo_ctor 1 seed)) = Ok [price (z :: l)]) /\
       is_Enormals (S n) price (mean n)) /\
    is_Epoisson (lambda * t) mean e.

Theorem C38_merton_expectation_partial : forall lambda muJ sigmaJ m w d t seed,
  mdKind m = MMerton lambda muJ sigmaJ -> deref (mdStock m) w = Ok d ->
  0 < lambda -> 0 < t -> 0 < sigmaJ ->
  is_Emerton lambda muJ sigmaJ m w t seed
    (getPrice d * exp ((getR w - dividend d) * t) * exp (lambda * t * (exp (muJ + sigmaJ * sigmaJ / 2) - 1))).
Proof.
  intros lambda muJ sigmaJ m w d t seed K D P1 P2 P3. assert (P : 0 < lambda * t) by (now apply Rmult_lt_0_compat).
  set (C := getPrice d * exp ((getR w - dividend d) * t)). set (x := exp (muJ + sigmaJ * sigmaJ / 2)).
  exists (fun n => C * x ^ n). split; [|apply Epoisson_pow].
  intros n. set (mu := (mR w - dividend d - sigma_ d * sigma_ d / 2) * t). set (s := sigma_ d * sqrt t).
  exists (fun l => S_ d * exp (mu + s * hd 0 l + fold_right (fun z acc => muJ + sigmaJ * z + acc) 0 (tl l))).
  split.
  - intros z l L. rewrite (merton_path lambda muJ sigmaJ m w d t seed z n); try easy; [|now rewrite map_length].
    rewrite Rsum_map_fold. reflexivity.
  - cbn [is_Enormals hd tl]. exists (fun z => S_ d * exp (mu + s * z) * x ^ n). split.
    + intros z. apply Enormals_sum.
    + eapply is_Enormal_ext; [|replace (C * x ^ n) with ((S_ d * x ^ n) * exp (mu + s * s / 2)); [apply Enormal_exp|]].
      * intros z. cbn. ring.
      * assert (E : mu + s * s / 2 = (getR w - dividend d) * t).
        { unfold s, mu. change (getR w) with (mR w). pose proof (sqrt_sqrt t ltac:(lra)). nra. }
        rewrite E. unfold C. change (getPrice d) with (S_ d). ring.
Qed.
Print Assumptions C38_merton_expectation_partial.

Lemma is_Emerton_unique : forall lambda muJ sigmaJ m w t seed e1 e2,
  is_Emerton lambda muJ sigmaJ m w t seed e1 -> is_Emerton lambda muJ sigmaJ m w t seed e2 -> 
  sigmaJ <> 0 -> e1 = e2.
Proof.
  intros lambda muJ sigmaJ m w t seed e1 e2 (m1 & A1 & B1) (m2 & A2 & B2) _.
  assert (E : forall n, m1 n = m2 n).
  { intros n. destruct (A1 n) as (p1 & P1 & Q1). destruct (A2 n) as (p2 & P2 & Q2).
    eapply is_Enormals_unique; [exact Q1|]. eapply is_Enormals_ext; [|exact Q2].
    intros [|z l] L; [discriminate|]. cbn in L. specialize (P1 z l ltac:(lia)). specialize (P2 z l ltac:(lia)). congruence. }
  eapply is_Epoisson_unique; [exact B1|]. unfold is_Epoisson in *. eapply is_series_ext; [|exact B2].
  intros n. cbn. now rewrite E.
Qed.

(** Refuted for Merton: no drift compensation, so the discounted price grows (or falls)
    unless muJ = - sigmaJ^2 / 2. *)
Theorem C38_merton_refuted : exists (w : Market R) lambda muJ sigmaJ m d t,
  Merton_ctor "A" w lambda muJ sigmaJ = Ok m /\ deref (mdStock m) w = Ok d /\ 0 < lambda /\ 0 < t /\
  forall seed, ~ is_Emerton lambda muJ sigmaJ m w t seed (getPrice d * exp ((getR w - dividend d) * t)).
Proof.
  exists (mkMarket 0 [("A"%string, 0%nat)] [] [mkStock 1 1 None] []), 1, 0, 1,
    (mkModel "A" 0 (MMerton 1 0 1)), (mkStock 1 1 None), 1.
  split.
  { unfold Merton_ctor, StockModel_ctor. cbn. unfold n0; cbn. rewrite Flocq.Core.Raux.Rle_bool_false by lra. reflexivity. }
  split; [reflexivity|]. split; [lra|]. split; [lra|]. intros seed H.
  pose proof (C38_merton_expectation_partial 1 0 1 (mkModel "A" 0 (MMerton 1 0 1))
    (mkMarket 0 [("A"%string, 0%nat)] [] [mkStock 1 1 None] []) (mkStock 1 1 None) 1 seed eq_refl eq_refl ltac:(lra) ltac:(lra) ltac:(lra)) as H'.
  pose proof (is_Emerton_unique _ _ _ _ _ _ _ _ _ H H' ltac:(lra)) as E.
  match type of E with ?C = ?C * ?q => assert (0 < C); [cbn; apply Rmult_lt_0_compat; [lra|apply exp_pos]|assert (q = 1) as Q by nra] end.
  rewrite <- exp_0 in Q. apply exp_inv in Q.
  assert (exp 0 < exp (0 + 1 * 1 / 2)) by (apply exp_increasing; lra). rewrite exp_0 in *. lra.
Qed.
Print Assumptions C38_merton_refuted.

(** ** Bates: exact one-step expectation, and refutation. *)
Definition is_Ebates (lambda muJ sigmaJ : R) (m : StockModel R) (w : Market R) (t : R) (seed : Z) (e : R) : Prop :=
  exists mean : nat -> R,
    (forall n, exists price : list R -> R,
       (forall z1 z2 l, length l = n ->
          fst (simulatePrices (env_list (z1 :: z2 :: 0 :: map (fun x => muJ + sigmaJ * x) l) [0%Z; 0%Z; Z.of_nat n])
                 m w t (Pseudo_ctor 1 seed)) = Ok [price (z1 :: z2 :: l)]) /\
       is_Enormals (S (S n)) price (mean n)) /\
    is_Epoisson (lambda * t) mean e.

Theorem C38_bates_expectation_partial : forall kappa theta sigma_v rho v0 lambda muJ sigmaJ disc m w d t seed,
  mdKind m = MBates kappa theta sigma_v rho v0 lambda muJ sigmaJ disc -> deref (mdStock m) w = Ok d ->
  0 < lambda -> 0 < t -> 0 < sigmaJ -> -1 <= rho <= 1 ->
  is_Ebates lambda muJ sigmaJ m w t seed
    (getPrice d * exp ((getR w - dividend d) * t) * exp (lambda * t * (exp (muJ + sigmaJ * sigmaJ / 2) - 1))).
Proof.
  intros kappa theta sigma_v rho v0 lambda muJ sigmaJ disc m w d t seed K D P1 P2 P3 Rho.
  assert (P : 0 < lambda * t) by (now apply Rmult_lt_0_compat).
  set (C := getPrice d * exp ((getR w - dividend d) * t)). set (x := exp (muJ + sigmaJ * sigmaJ / 2)).
  exists (fun n => C * x ^ n). split; [|apply Epoisson_pow].
  intros n. set (mu := (mR w - dividend d - Rmax v0 0 / 2) * t). set (s := sqrt (Rmax v0 0 * t)). set (q := sqrt (1 - rho * rho)).
  exists (fun l => S_ d * exp (mu + s * (rho * nth 0 l 0 + q * nth 1 l 0)
                               + fold_right (fun z acc => muJ + sigmaJ * z + acc) 0 (tl (tl l)))).
  split.
  - intros z1 z2 l L.
    rewrite (bates_path kappa theta sigma_v rho v0 lambda muJ sigmaJ disc m w d t seed z1 z2 n); try easy; [|now rewrite map_length].
    rewrite Rsum_map_fold. reflexivity.
  - assert (S2 : s * s = Rmax v0 0 * t) by (apply sqrt_sqrt; apply Rmult_le_pos; [apply Rmax_r|lra]).
    assert (Q2 : q * q = 1 - rho * rho) by (apply sqrt_sqrt; nra).
    cbn [is_Enormals tl]. exists (fun z1 => (S_ d * x ^ n) * exp ((mu + (s * q) * (s * q) / 2) + (s * rho) * z1)). split.
    + intros z1. exists (fun z2 => S_ d * exp (mu + s * (rho * z1 + q * z2)) * x ^ n). split.
      * intros z2. cbn [nth]. apply Enormals_sum.
      * eapply is_Enormal_ext; [|replace (mu + s * q * (s * q) / 2 + s * rho * z1) with (mu + s * rho * z1 + s * q * (s * q) / 2) by ring; apply Enormal_exp].
        intros z2. cbn. replace (mu + s * (rho * z1 + q * z2)) with (mu + s * rho * z1 + s * q * z2) by ring. ring.
    + replace (C * x ^ n)
        with ((S_ d * x ^ n) * exp (mu + s * q * (s * q) / 2 + s * rho * (s * rho) / 2)); [apply Enormal_exp|].
      assert (E : mu + s * q * (s * q) / 2 + s * rho * (s * rho) / 2 = (getR w - dividend d) * t).
      { change (getR w) with (mR w). unfold mu.
        replace (s * q * (s * q)) with ((s * s) * (q * q)) by ring.
        replace (s * rho * (s * rho)) with ((s * s) * (rho * rho)) by ring. rewrite S2, Q2. field. }
      rewrite E. unfold C. change (getPrice d) with (S_ d). ring.
Qed.
Print Assumptions C38_bates_expectation_partial.

Lemma is_Ebates_unique : forall lambda muJ sigmaJ m w t seed e1 e2,
  is_Ebates lambda muJ sigmaJ m w t seed e1 -> is_Ebates lambda muJ sigmaJ m w t seed e2 -> e1 = e2.
Proof.
  intros lambda muJ sigmaJ m w t seed e1 e2 (m1 & A1 & B1) (m2 & A2 & B2).
  assert (E : forall n, m1 n = m2 n).
  { intros n. destruct (A1 n) as (p1 & P1 & Q1). destruct (A2 n) as (p2 & P2 & Q2).
    eapply is_Enormals_unique; [exact Q1|]. eapply is_Enormals_ext; [|exact Q2].
    intros [|z1 [|z2 l]] L; try discriminate. cbn in L. specialize (P1 z1 z2 l ltac:(lia)). specialize (P2 z1 z2 l ltac:(lia)). congruence. }
  eapply is_Epoisson_unique; [exact B1|]. unfold is_Epoisson in *. eapply is_series_ext; [|exact B2].
  intros n. cbn. now rewrite E.
Qed.

Theorem C38_bates_refuted : exists (w : Market R) kappa theta sigma_v rho v0 lambda muJ sigmaJ m d t,
  Bates_ctor "A" w kappa theta sigma_v rho v0 lambda muJ sigmaJ None = Ok m /\ deref (mdStock m) w = Ok d /\ 0 < lambda /\ 0 < t /\
  forall seed, ~ is_Ebates lambda muJ sigmaJ m w t seed (getPrice d * exp ((getR w - dividend d) * t)).
Proof.
  exists (mkMarket 0 [("A"%string, 0%nat)] [] [mkStock 1 1 None] []), 1, 1, 1, 0, 1, 1, 0, 1,
    (mkModel "A" 0 (MBates 1 1 1 0 1 1 0 1 CIREuler)), (mkStock 1 1 None), 1.
  split.
  { unfold Bates_ctor, StockModel_ctor. cbn. unfold n0, n1; cbn.
    rewrite !Flocq.Core.Raux.Rle_bool_false, !Flocq.Core.Raux.Rlt_bool_false by lra. reflexivity. }
  split; [reflexivity|]. split; [lra|]. split; [lra|]. intros seed H.
  pose proof (C38_bates_expectation_partial 1 1 1 0 1 1 0 1 CIREuler (mkModel "A" 0 (MBates 1 1 1 0 1 1 0 1 CIREuler))
    (mkMarket 0 [("A"%string, 0%nat)] [] [mkStock 1 1 None] []) (mkStock 1 1 None) 1 seed eq_refl eq_refl ltac:(lra) ltac:(lra) ltac:(lra) ltac:(lra)) as H'.
  pose proof (is_Ebates_unique _ _ _ _ _ _ _ _ _ H H') as E.
  match type of E with ?C = ?C * ?q => assert (0 < C); [cbn; apply Rmult_lt_0_compat; [lra|apply exp_pos]|assert (q = 1) as Q by nra] end.
  rewrite <- exp_0 in Q. apply exp_inv in Q.
  assert (exp 0 < exp (0 + 1 * 1 / 2)) by (apply exp_increasing; lra). rewrite exp_0 in *. lra.
Qed.
Print Assumptions C38_bates_refuted.
