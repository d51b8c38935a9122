(** Property C38 again: the mean of every price of a path, for all six models, any number
    of steps and any pseudo-random generator.  [is_mean] (S_Expect.v) is the expectation
    over independent draws with the laws of the distribution objects. *)
From Coq Require Import String List ZArith Reals Bool Lra Lia.
From Coquelicot Require Import Coquelicot.
From Flocq Require Import Core.
From Verif Require Import M_Num M_Outcome M_Dict M_Stock M_Market M_Random M_Model
  S_Market S_Model S_Prob S_Expect L_Gauss L_Martingale L_Expect L_Sampler L_Growth.
Import ListNotations.
Local Open Scope R_scope.

(** The time of the price with index [i] on a path of [n] steps to [t], and the price for
    delivery at that time: what a martingale discounted at r - c has as its mean. *)
Definition date (t : R) (n : Z) (i : nat) : R := INR (S i) * (t / IZR n).
Definition forward (w : Market R) (d : StockData R) (u : R) : R := getPrice d * exp ((getR w - dividend d) * u).

(** A pseudo-random generator for paths with a price of index [i]. *)
Definition pseudo_path (g : Gen R) (i : nat) : Prop :=
  gQuasi g = None /\ (getDim g <= INT_MAX)%Z /\ (i < Z.to_nat (getDim g))%nat.

Lemma model_mean : forall m w d t g i, deref (mdStock m) w = Ok d -> pseudo_path g i -> 0 <= t ->
  drawable d t (getDim g) (mdKind m) ->
  is_mean (fun env => simulatePrices env m w t) g (fun path => nth i path 0)
    (forward w d (date t (getDim g) i) * exp (drift_error d (mdKind m) * date t (getDim g) i)).
Proof.
  intros m w d t g i D (Q & N & I) T H.
  apply (mean_iff (getDim g) _ (path_sampler m w t (getDim g))); [apply r_simulate|easy|easy|].
  unfold path_sampler. rewrite D. cbn [pbind].
  assert (N0 : (0 < getDim g)%Z) by lia. assert (IZR (getDim g) > 0) by (apply (IZR_lt 0); exact N0).
  pose proof (kind_mean d (mR w) t (getDim g) (mdKind m) i) as K. cbv zeta in K.
  unfold forward, date. rewrite (Rmult_assoc (getPrice d)), <- exp_plus, <- Rmult_plus_distr_r. apply K; try easy.
  apply Rmult_le_pos; [easy|]. left. now apply Rinv_0_lt_compat.
Qed.

Lemma mean_unique : forall m w t g f a b, gQuasi g = None ->
  is_mean (fun env => simulatePrices env m w t) g f a -> is_mean (fun env => simulatePrices env m w t) g f b -> a = b.
Proof.
  intros m w t g f a b Q A B.
  apply (mean_iff (getDim g) _ (path_sampler m w t (getDim g))) in A; [|apply r_simulate|easy|easy].
  apply (mean_iff (getDim g) _ (path_sampler m w t (getDim g))) in B; [|apply r_simulate|easy|easy].
  eapply E_unique; eassumption.
Qed.

Lemma step_pos : forall t g i, pseudo_path g i -> 0 < t -> 0 < t / IZR (getDim g).
Proof. intros t g i (_ & _ & I) T. apply Rdiv_lt_0_compat; [easy|]. apply IZR_lt. lia. Qed.
Lemma date_pos : forall t g i, pseudo_path g i -> 0 < t -> 0 < date t (getDim g) i.
Proof. intros t g i P T. apply Rmult_lt_0_compat; [apply lt_0_INR; lia|now apply (step_pos t g i)]. Qed.

(** ** GBM and Heston: every price of the path has the forward price as its mean. *)
Theorem C38_diffusion_every_date : forall m w d t g i,
  (mdKind m = MGBM \/ exists kappa theta sigma_v rho v0 disc,
     -1 <= rho <= 1 /\ mdKind m = MHeston kappa theta sigma_v rho v0 disc) ->
  deref (mdStock m) w = Ok d -> pseudo_path g i -> 0 <= t ->
  is_mean (fun env => simulatePrices env m w t) g (fun path => nth i path 0) (forward w d (date t (getDim g) i)).
Proof.
  intros m w d t g i K D P T.
  assert (H : drawable d t (getDim g) (mdKind m) /\ drift_error d (mdKind m) = 0).
  { destruct K as [->|(kappa & theta & sigma_v & rho & v0 & disc & Rho & ->)]; cbn; auto. }
  destruct H as [H E]. pose proof (model_mean m w d t g i D P T H) as M.
  rewrite E, Rmult_0_l, exp_0, Rmult_1_r in M. exact M.
Qed.
Print Assumptions C38_diffusion_every_date.

(** The hypothesis of the generator holds for the constructor's generators. *)
Example C38_generator_ex : pseudo_path (Pseudo_ctor 252 1) 251.
Proof. unfold pseudo_path. cbn. repeat split; [unfold INT_MAX|]; lia. Qed.

(** Daily steps for a year at rate 0: a stock at 1 has mean 1 at the end. *)
Example C38_ex : is_mean (fun env => simulatePrices env (mkModel "A" 0 MGBM) (mkMarket 0 [("A"%string, 0%nat)] [] [mkStock 1 (1/2) None] []) 1)
  (Pseudo_ctor 252 1) (fun path => nth 251 path 0) 1.
Proof.
  pose proof (C38_diffusion_every_date (mkModel "A" 0 MGBM) (mkMarket 0 [("A"%string, 0%nat)] [] [mkStock 1 (1/2) None] [])
    (mkStock 1 (1/2) None) 1 (Pseudo_ctor 252 1) 251 (or_introl eq_refl) eq_refl C38_generator_ex ltac:(lra)) as H.
  unfold forward in H. cbn [getR getPrice dividend mR S_ c_] in H. rewrite Rminus_0_r, Rmult_0_l, exp_0, Rmult_1_r in H. exact H.
Qed.

(** ** Merton and Bates: the jumps are not compensated in the drift, so the mean is the
    forward price times exp(lambda (E e^J - 1) u).  (Full statement: it is the forward
    price; refuted by [C38_merton_refuted] and [C38_bates_refuted].) *)
Theorem C38_jumps_every_date_partial : forall lambda muJ sigmaJ m w d t g i,
  (mdKind m = MMerton lambda muJ sigmaJ \/ exists kappa theta sigma_v rho v0 disc,
     -1 <= rho <= 1 /\ mdKind m = MBates kappa theta sigma_v rho v0 lambda muJ sigmaJ disc) ->
  deref (mdStock m) w = Ok d -> pseudo_path g i -> 0 < t -> 0 < lambda -> 0 < sigmaJ ->
  let u := date t (getDim g) i in
  is_mean (fun env => simulatePrices env m w t) g (fun path => nth i path 0)
    (forward w d u * exp (lambda * (exp (muJ + sigmaJ * sigmaJ / 2) - 1) * u)) /\
  (getPrice d <> 0 -> is_mean (fun env => simulatePrices env m w t) g (fun path => nth i path 0) (forward w d u) ->
   muJ = - (sigmaJ * sigmaJ / 2)).
Proof.
  intros lambda muJ sigmaJ m w d t g i K D P T L SJ u.
  pose proof (step_pos t g i P T) as DT. pose proof (date_pos t g i P T) as U.
  assert (H : drawable d t (getDim g) (mdKind m) /\ drift_error d (mdKind m) = lambda * (exp (muJ + sigmaJ * sigmaJ / 2) - 1)).
  { destruct K as [->|(kappa & theta & sigma_v & rho & v0 & disc & Rho & ->)]; cbn; (split; [|easy]).
    - split; [now apply Rmult_lt_0_compat|easy].
    - repeat split; try easy. now apply Rmult_lt_0_compat. }
  destruct H as [H E]. pose proof (model_mean m w d t g i D P ltac:(lra) H) as M. rewrite E in M.
  split; [exact M|]. intros S0 F. pose proof (mean_unique m w t g _ _ _ (proj1 P) M F) as Eq.
  fold u in Eq, U. assert (F0 : forward w d u <> 0).
  { unfold forward. apply Rmult_integral_contrapositive. split; [easy|]. apply Rgt_not_eq, exp_pos. }
  assert (X : exp (lambda * (exp (muJ + sigmaJ * sigmaJ / 2) - 1) * u) = 1).
  { apply (Rmult_eq_reg_l (forward w d u)); [rewrite Eq; ring|easy]. }
  rewrite <- exp_0 in X. apply exp_inv in X. rewrite ?exp_0 in X.
  assert (Y : exp (muJ + sigmaJ * sigmaJ / 2) = 1).
  { apply Rmult_integral in X. destruct X as [X|X]; [|lra]. apply Rmult_integral in X. destruct X; lra. }
  rewrite <- exp_0 in Y. apply exp_inv in Y. lra.
Qed.
Print Assumptions C38_jumps_every_date_partial.

(** Jumps of mean 0 and deviation 1, once a year: the mean doubles rather than staying at 1. *)
Example C38_merton_ex : is_mean (fun env => simulatePrices env (mkModel "A" 0 (MMerton 1 0 1)) (mkMarket 0 [("A"%string, 0%nat)] [] [mkStock 1 (1/2) None] []) 1)
  (Pseudo_ctor 1 1) (fun path => nth 0 path 0) (exp (exp (1/2) - 1)).
Proof.
  pose proof (proj1 (C38_jumps_every_date_partial 1 0 1 (mkModel "A" 0 (MMerton 1 0 1)) (mkMarket 0 [("A"%string, 0%nat)] [] [mkStock 1 (1/2) None] [])
    (mkStock 1 (1/2) None) 1 (Pseudo_ctor 1 1) 0 (or_introl eq_refl) eq_refl ltac:(unfold pseudo_path; cbn; repeat split; [unfold INT_MAX|]; lia) ltac:(lra) ltac:(lra) ltac:(lra))) as H.
  unfold forward, date in H. cbn [getR getPrice dividend mR S_ c_ getDim gDim Pseudo_ctor INR] in H.
  replace (exp (exp (1/2) - 1)) with (1 * exp ((0 - 0) * (1 * (1 / 1))) * exp (1 * (exp (0 + 1 * 1 / 2) - 1) * (1 * (1 / 1)))); [exact H|].
  replace ((0 - 0) * (1 * (1 / 1))) with 0 by field. rewrite exp_0. replace (0 + 1 * 1 / 2) with (1/2) by field.
  replace (1 * (exp (1 / 2) - 1) * (1 * (1 / 1))) with (exp (1/2) - 1) by field. ring.
Qed.

(** ** Kou: kou_model.cpp:51-56 adds a downward jump to every upward one, so the jump has
    mean (p eta1/(eta1-1) + 1-p) eta2/(eta2+1) while the compensator has the two-sided
    p eta1/(eta1-1) + (1-p) eta2/(eta2+1).  The mean falls short of the forward price
    whenever p > 0.  (Full statement: it is the forward price.) *)
Theorem C38_kou_every_date_partial : forall ticker lambda p eta1 eta2 m w d t g i,
  Kou_ctor ticker w lambda p eta1 eta2 = Ok m -> deref (mdStock m) w = Ok d -> pseudo_path g i ->
  0 < t -> 0 < lambda -> 1 < eta1 -> 0 < eta2 ->
  let u := date t (getDim g) i in
  is_mean (fun env => simulatePrices env m w t) g (fun path => nth i path 0)
    (forward w d u * exp (- (lambda * p * (eta1 / (eta1 - 1)) / (eta2 + 1)) * u)) /\
  (0 < getPrice d -> 0 < p -> forall mean,
   is_mean (fun env => simulatePrices env m w t) g (fun path => nth i path 0) mean -> mean < forward w d u).
Proof.
  intros ticker lambda p eta1 eta2 m w d t g i C D P T L E1 E2 u.
  pose proof (step_pos t g i P T) as DT. pose proof (date_pos t g i P T) as U. fold u in U.
  assert (K : mdKind m = MKou lambda p eta1 eta2 (p * (eta1 / (eta1 - 1)) + (1 - p) * (eta2 / (eta2 + 1))) /\ 0 <= p <= 1).
  { unfold Kou_ctor, StockModel_ctor in C. destruct (getStockData ticker w) as [l| |]; try discriminate. cbn [bind] in C.
    destruct (deref l w) as [d'| |]; try discriminate. cbn [bind] in C. cbn in C. unfold n0, n1 in C. cbn in C.
    revert C. case Rlt_bool_spec; [discriminate|]. intros P0. case Rlt_bool_spec; [discriminate|]. intros P1. cbn [orb].
    case Rlt_bool_spec; [discriminate|]. intros _. case Rlt_bool_spec; [discriminate|]. intros _ [= <-]. cbn. split; [reflexivity|lra]. }
  destruct K as [K PP].
  assert (H : drawable d t (getDim g) (mdKind m)).
  { rewrite K. cbn. repeat split; try easy. now apply Rmult_lt_0_compat. }
  assert (E : drift_error d (mdKind m) = - (lambda * p * (eta1 / (eta1 - 1)) / (eta2 + 1))).
  { rewrite K. cbn. unfold kou_factor. field. lra. }
  pose proof (model_mean m w d t g i D P ltac:(lra) H) as M. rewrite E in M. fold u in M.
  split; [exact M|]. intros S0 P0 mean F. rewrite (mean_unique m w t g _ _ _ (proj1 P) F M).
  assert (0 < forward w d u) by (unfold forward; apply Rmult_lt_0_compat; [easy|apply exp_pos]).
  assert (exp (- (lambda * p * (eta1 / (eta1 - 1)) / (eta2 + 1)) * u) < 1).
  { apply Rlt_le_trans with (exp 0); [apply exp_increasing|rewrite exp_0; lra].
    assert (0 < lambda * p * (eta1 / (eta1 - 1)) / (eta2 + 1)).
    { apply Rdiv_lt_0_compat; [|lra]. apply Rmult_lt_0_compat; [nra|]. apply Rdiv_lt_0_compat; lra. }
    nra. }
  nra.
Qed.
Print Assumptions C38_kou_every_date_partial.

Definition one_stock (sigma : R) : Market R := mkMarket 0 [("A"%string, 0%nat)] [] [mkStock 1 sigma None] [].

Theorem C38_kou_refuted : exists (w : Market R) lambda p eta1 eta2 m d t,
  Kou_ctor "A" w lambda p eta1 eta2 = Ok m /\ deref (mdStock m) w = Ok d /\ 0 < lambda /\ 0 < t /\
  forall g i, pseudo_path g i ->
    ~ is_mean (fun env => simulatePrices env m w t) g (fun path => nth i path 0) (forward w d (date t (getDim g) i)).
Proof.
  exists (one_stock 1), 1, (1 / 2), 2, 1.
  eexists. exists (mkStock 1 1 None), 1. split; [|split; [|split; [lra|split; [lra|]]]].
  - unfold Kou_ctor, StockModel_ctor. cbn. unfold n0, n1; cbn. rewrite !Rlt_bool_false by lra. cbn. reflexivity.
  - reflexivity.
  - intros g i P H.
    refine (Rlt_irrefl _ (proj2 (C38_kou_every_date_partial "A" 1 (1/2) 2 1 _ (one_stock 1) (mkStock 1 1 None) 1 g i _ _ P _ _ _ _) _ _ _ H));
      try lra; try reflexivity.
    + unfold Kou_ctor, StockModel_ctor. cbn. unfold n0, n1; cbn. rewrite !Rlt_bool_false by lra. cbn. reflexivity.
    + cbn. lra.
Qed.
Print Assumptions C38_kou_refuted.

(** ** C39: [std_gamma_mean] is the mean of the gamma law, so the clock of a step of length
    dt runs for dt/nu^2 on average. *)
Theorem C39_gamma_mean : forall shape scale, 0 < shape -> 0 < scale ->
  is_law (SGamma shape scale) (fun x => x) (std_gamma_mean shape scale).
Proof. exact gamma_mean. Qed.
Print Assumptions C39_gamma_mean.

Example C39_ex : is_law (SGamma 3 2) (fun x => x) 6.
Proof. replace 6 with (std_gamma_mean 3 2) by (unfold std_gamma_mean; lra). apply C39_gamma_mean; lra. Qed.

(** ** Variance gamma: gamma_distribution takes a scale where the class passes a rate
    (C39), so the subordinator has scale 1/nu while omega compensates scale nu.  The mean
    is the forward price only when nu = 1 or theta + sigma^2/2 = 0.  (Full statement: it
    always is.) *)
Theorem C38_vg_every_date_partial : forall ticker nu theta m w d t g i,
  VarianceGamma_ctor ticker w nu theta = Ok m -> deref (mdStock m) w = Ok d -> pseudo_path g i -> 0 < t ->
  let b := theta + getSigma d * getSigma d / 2 in
  b * nu < 1 -> b < nu ->
  let u := date t (getDim g) i in
  is_mean (fun env => simulatePrices env m w t) g (fun path => nth i path 0)
    (forward w d u * Rpower ((1 - b * nu) / (1 - b / nu)) (u / nu)) /\
  (getPrice d <> 0 ->
   (is_mean (fun env => simulatePrices env m w t) g (fun path => nth i path 0) (forward w d u) <-> nu = 1 \/ b = 0)).
Proof.
  intros ticker nu theta m w d t g i C D P T b B1 B2 u.
  pose proof (step_pos t g i P T) as DT. pose proof (date_pos t g i P T) as U. fold u in U.
  assert (K : mdKind m = MVarianceGamma nu theta (1 / nu * ln (1 - b * nu)) /\ 0 < nu).
  { unfold VarianceGamma_ctor, StockModel_ctor in C. destruct (getStockData ticker w) as [l| |]; try discriminate. cbn [bind] in C.
    destruct (deref l w) as [d'| |] eqn:El; try discriminate. cbn [bind] in C. cbn in C. unfold n0, n1 in C. cbn in C.
    revert C. case Rle_bool_spec; [discriminate|]. intros P0 [= <-]. cbn [mdStock] in D. rewrite El in D. injection D as ->.
    split; [|easy]. cbn [mdKind]. f_equal. f_equal. f_equal. unfold b. field. }
  destruct K as [K N0].
  assert (Q : 0 < 1 - b * (1 / nu)).
  { apply (Rmult_lt_reg_r nu); [easy|]. replace ((1 - b * (1 / nu)) * nu) with (nu - b) by (field; lra). lra. }
  assert (H : drawable d t (getDim g) (mdKind m)) by (rewrite K; cbn; repeat split; easy).
  assert (E : drift_error d (mdKind m) = / nu * (ln (1 - b * nu) - ln (1 - b * (1 / nu)))).
  { rewrite K. cbn. fold b. field. lra. }
  pose proof (model_mean m w d t g i D P ltac:(lra) H) as M. rewrite E in M. fold u in M.
  assert (X : exp (/ nu * (ln (1 - b * nu) - ln (1 - b * (1 / nu))) * u) = Rpower ((1 - b * nu) / (1 - b / nu)) (u / nu)).
  { unfold Rpower. f_equal. replace (b / nu) with (b * (1 / nu)) by (field; lra).
    rewrite (ln_div (1 - b * nu)) by lra. field. lra. }
  rewrite X in M. split; [exact M|]. intros S0. split.
  - intros F. pose proof (mean_unique m w t g _ _ _ (proj1 P) M F) as Eq. rewrite <- X in Eq.
    assert (F0 : forward w d u <> 0).
    { unfold forward. apply Rmult_integral_contrapositive. split; [easy|]. apply Rgt_not_eq, exp_pos. }
    assert (Y : exp (/ nu * (ln (1 - b * nu) - ln (1 - b * (1 / nu))) * u) = 1).
    { apply (Rmult_eq_reg_l (forward w d u)); [rewrite Eq; ring|easy]. }
    rewrite <- exp_0 in Y. apply exp_inv in Y. rewrite ?exp_0 in Y.
    assert (Z : ln (1 - b * nu) = ln (1 - b * (1 / nu))).
    { apply Rmult_integral in Y. destruct Y as [Y|Y]; [|lra]. apply Rmult_integral in Y.
      pose proof (Rinv_0_lt_compat nu N0). destruct Y; lra. }
    apply ln_inv in Z; [|lra|lra].
    assert (W : b * ((nu - 1) * (nu + 1)) = 0).
    { assert (b * nu = b * (1 / nu)) by lra. replace (b * ((nu - 1) * (nu + 1))) with ((b * nu - b * (1 / nu)) * nu) by (field; lra). rewrite H0. ring. }
    apply Rmult_integral in W. destruct W as [W|W]; [now right|left]. apply Rmult_integral in W. destruct W; lra.
  - intros V. assert (W : Rpower ((1 - b * nu) / (1 - b / nu)) (u / nu) = 1).
    { replace ((1 - b * nu) / (1 - b / nu)) with 1.
      - unfold Rpower. rewrite ln_1, Rmult_0_r. apply exp_0.
      - destruct V as [V|V]; [|rewrite V; field; lra]. rewrite V in *. field. lra. }
    rewrite W, Rmult_1_r in M. exact M.
Qed.
Print Assumptions C38_vg_every_date_partial.

Theorem C38_vg_refuted : exists (w : Market R) nu theta m d t,
  VarianceGamma_ctor "A" w nu theta = Ok m /\ deref (mdStock m) w = Ok d /\ 0 < t /\
  forall g i, pseudo_path g i ->
    ~ is_mean (fun env => simulatePrices env m w t) g (fun path => nth i path 0) (forward w d (date t (getDim g) i)).
Proof.
  assert (C : exists m, VarianceGamma_ctor "A" (one_stock (1/2)) (1/2) 0 = Ok m /\ mdStock m = 0%nat).
  { eexists. split; [|shelve]. unfold VarianceGamma_ctor, StockModel_ctor. cbn. unfold n0, n1; cbn. rewrite Rle_bool_false by lra. reflexivity.
    Unshelve. reflexivity. }
  destruct C as (m & C & M0).
  exists (one_stock (1/2)), (1/2), 0, m, (mkStock 1 (1/2) None), 1.
  assert (D : deref (mdStock m) (one_stock (1/2)) = Ok (mkStock 1 (1/2) None)) by (rewrite M0; reflexivity).
  split; [exact C|]. split; [exact D|]. split; [lra|]. intros g i P H.
  destruct (C38_vg_every_date_partial "A" (1/2) 0 m (one_stock (1/2)) (mkStock 1 (1/2) None) 1 g i C D P ltac:(lra)) as [_ I];
    try (cbn; lra).
  cbn in I. apply I in H; [|lra]. destruct H; lra.
Qed.
Print Assumptions C38_vg_refuted.
