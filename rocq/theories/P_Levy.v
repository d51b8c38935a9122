(** Property C122: the paths of the models with independent increments have the law of the
    Levy process of the model. *)
From Coq Require Import String List ZArith Reals Bool Lra Lia Psatz.
From Coquelicot Require Import Coquelicot.
From Flocq Require Import Core.
From Verif Require Import M_Num M_Outcome M_Dict M_Stock M_Market M_Random M_Model
  S_Market S_Model S_Prob S_Expect S_Bridge S_Levy L_Gauss L_Martingale L_Expect L_Sampler L_Growth L_Bridge L_Levy P_Growth.
Import ListNotations.
Local Open Scope R_scope.

(** Paths of the model on a pseudo-random generator with at least one date, from a stock
    with a positive price. *)
Definition on_paths (m : StockModel R) (w : Market R) (d : StockData R) (t : R) (g : Gen R) : Prop :=
  deref (mdStock m) w = Ok d /\ 0 < getPrice d /\ pseudo_path g 0 /\ 0 < t.
Definition model_paths (m : StockModel R) (w : Market R) (d : StockData R) (t : R) (g : Gen R) (dom : R -> Prop) (psi : R -> R) : Prop :=
  levy_paths (fun env => simulatePrices env m w t) g (getPrice d) (t / IZR (getDim g)) dom psi.
(** The drift of the logarithm when the mean of the price grows at the rate r - c. *)
Definition log_drift (w : Market R) (d : StockData R) : R := getR w - dividend d - getSigma d * getSigma d / 2.

(** The exponent is determined by the paths. *)
Definition spike (n : nat) (u : R) (i : nat) : R := if Nat.eqb (S i) n then u else 0.
Lemma spike_sum : forall n u j, sum_to j (spike n u) = if (Nat.leb 1 n && Nat.leb n j)%bool then u else 0.
Proof.
  intros n u. induction j as [|j IH].
  - destruct n; reflexivity.
  - cbn [sum_to]. rewrite IH. unfold spike.
    destruct (Nat.eqb_spec (S j) n), (Nat.leb_spec 1 n), (Nat.leb_spec n j), (Nat.leb_spec n (S j)); cbn [andb]; try lia; lra.
Qed.
Lemma spike_tail : forall n u j, (j < n)%nat -> tail_sum (spike n u) n j = u.
Proof.
  intros n u j J. unfold tail_sum. rewrite !spike_sum.
  replace (Nat.leb 1 n) with true by (symmetry; apply Nat.leb_le; lia). rewrite Nat.leb_refl.
  replace (Nat.leb n j) with false by (symmetry; apply Nat.leb_gt; lia). cbn. ring.
Qed.
Lemma spike_moment : forall S h psi n u, (1 <= n)%nat -> levy_moment S h psi (spike n u) n = exp (u * ln S + h * (INR n * psi u)).
Proof.
  intros S h psi n u N. unfold levy_moment. rewrite (sum_ext n (fun j => psi (tail_sum (spike n u) n j)) (fun _ => psi u)) by (intros j J; now rewrite spike_tail).
  rewrite spike_sum. replace (Nat.leb 1 n) with true by (symmetry; apply Nat.leb_le; lia). rewrite Nat.leb_refl. cbn [andb].
  f_equal. f_equal. f_equal. clear N. induction n as [|n IH]; [cbn; ring|]. cbn [sum_to]. rewrite IH, S_INR. ring.
Qed.
Lemma levy_unique : forall m w d t g dom1 psi1 dom2 psi2 u, on_paths m w d t g ->
  model_paths m w d t g dom1 psi1 -> model_paths m w d t g dom2 psi2 -> dom1 u -> dom2 u -> psi1 u = psi2 u.
Proof.
  intros m w d t g dom1 psi1 dom2 psi2 u (D & S0 & P & T) H1 H2 U1 U2. set (n := Z.to_nat (getDim g)).
  assert (N : (1 <= n)%nat) by (destruct P as (_ & _ & P); fold n in P; lia).
  specialize (H1 (spike n u)). specialize (H2 (spike n u)). cbv zeta in H1, H2. fold n in H1, H2.
  assert (E : levy_moment (getPrice d) (t / IZR (getDim g)) psi1 (spike n u) n = levy_moment (getPrice d) (t / IZR (getDim g)) psi2 (spike n u) n).
  { apply (mean_unique m w t g (powers (spike n u) 0)); [apply P|apply H1|apply H2]; intros j J; now rewrite spike_tail. }
  rewrite !spike_moment in E by exact N. apply exp_inv in E.
  pose proof (step_pos t g 0 P T). assert (0 < INR n) by (apply lt_0_INR; lia).
  apply (Rmult_eq_reg_l (INR n)); [|lra]. apply (Rmult_eq_reg_l (t / IZR (getDim g))); [|lra]. lra.
Qed.

Lemma paths_of : forall m w d t g step dom psi, on_paths m w d t g ->
  levy_step step dom (fun u => t / IZR (getDim g) * psi u) ->
  (forall f x, is_E (pbind (pfor_int (getDim g) (record (fun S => S) step) (getPrice d, [])) (fun st => Done (Ok (snd st)))) f x ->
     is_E (kind_sampler d (mR w) t (getDim g) (mdKind m)) f x) ->
  model_paths m w d t g dom psi.
Proof.
  intros m w d t g step dom psi (D & S0 & (Q & N & I) & T) H HK a n Da.
  apply (mean_iff (getDim g) _ (path_sampler m w t (getDim g))); [apply r_simulate|easy|easy|].
  unfold path_sampler. rewrite D. cbn [pbind]. apply HK. now apply (E_levy _ _ dom).
Qed.

(** ** GBM and Merton *)
Theorem C122_gbm : forall m w d t g, mdKind m = MGBM -> on_paths m w d t g ->
  model_paths m w d t g (fun _ => True) (brownian_exponent (log_drift w d) (getSigma d)).
Proof.
  intros m w d t g K H. destruct H as (D & S0 & P & T). pose proof (step_pos t g 0 P T) as DT.
  eapply (paths_of _ _ _ _ _ (gbm_step d (mR w) t (getDim g))); [easy|apply gbm_levy; lra|].
  intros f x E. rewrite K. cbn [kind_sampler]. unfold gbm_sampler. apply E_new; [apply ctor_std|exact E].
Qed.
Print Assumptions C122_gbm.

Theorem C122_merton : forall lambda muJ sigmaJ m w d t g, mdKind m = MMerton lambda muJ sigmaJ -> on_paths m w d t g ->
  0 < lambda -> 0 < sigmaJ ->
  model_paths m w d t g (fun _ => True) (fun u =>
    brownian_exponent (log_drift w d) (getSigma d) u + jump_exponent lambda (normal_jump muJ sigmaJ) u).
Proof.
  intros lambda muJ sigmaJ m w d t g K H L SJ. destruct H as (D & S0 & P & T). pose proof (step_pos t g 0 P T) as DT.
  eapply (paths_of _ _ _ _ _ (merton_step d (mR w) t (getDim g) lambda muJ sigmaJ)); [easy|apply merton_levy; lra|].
  intros f x E. rewrite K. cbn [kind_sampler]. unfold merton_sampler. apply E_new; [apply ctor_std|].
  apply E_new; [cbn [Distr_ctor]; now rewrite ctor_gt by nra|]. apply E_new; [cbn [Distr_ctor]; now rewrite (ctor_gt _ SJ)|]. exact E.
Qed.
Print Assumptions C122_merton.

(** E S(1) S(2)^2 for a Merton model made by the constructor, two steps of length 1/2: the
    first step moves three powers, the second two. *)
Example C122_ex : exists m, Merton_ctor "A" (one_stock 1) 3 0 1 = Ok m /\
  is_mean (fun env => simulatePrices env m (one_stock 1) 1) (Pseudo_ctor1 2 7) (powers (fun i => INR (S i)) 0)
    (exp (/ 2 * ((- (1 / 2) * 3 + 9 / 2 + 3 * (exp (9 / 2) - 1)) + (- (1 / 2) * 2 + 4 / 2 + 3 * (exp (4 / 2) - 1))))).
Proof.
  eexists. split.
  - unfold Merton_ctor, StockModel_ctor. cbn. unfold n0; cbn. rewrite !Rle_bool_false by lra. reflexivity.
  - match goal with |- is_mean (fun env => simulatePrices env ?m ?w 1) ?g _ _ =>
      pose proof (C122_merton 3 0 1 m w (mkStock 1 1 None) 1 g eq_refl) as H end.
    assert (O : on_paths (mkModel "A" 0 (MMerton 3 0 1)) (one_stock 1) (mkStock 1 1 None) 1 (Pseudo_ctor1 2 7)).
    { split; [reflexivity|]. split; [cbn; lra|]. split; [|lra]. unfold pseudo_path. cbn. repeat split; [unfold INT_MAX|]; lia. }
    specialize (H O ltac:(lra) ltac:(lra) (fun i => INR (S i)) (fun _ _ => I)).
    match goal with |- is_mean _ _ _ ?x => match type of H with is_mean _ _ _ ?y => replace x with y; [exact H|] end end.
    unfold levy_moment. change (Z.to_nat (getDim (Pseudo_ctor1 2 7))) with 2%nat. change (getDim (Pseudo_ctor1 2 7)) with 2%Z.
    unfold tail_sum. cbn [sum_to]. unfold brownian_exponent, jump_exponent, normal_jump, log_drift.
    cbn. rewrite ln_1. f_equal.
    repeat match goal with |- context [exp ?x] => match x with 9 / 2 => fail 1 | 4 / 2 => fail 1 | _ =>
      first [replace x with (9 / 2) by lra | replace x with (4 / 2) by lra] end end. lra.
Qed.

(** ** Kou.  Full statement: for some drift the exponent is that of jumps with the double
    exponential law, upward with probability p and downward otherwise (model/kou_model.h).
    kou_model.cpp:51-56 draws a downward jump every time and with probability p adds an
    upward one, so the full statement holds only when p = 0. *)
Definition kou_claim (lambda p eta1 eta2 : R) (m : StockModel R) (w : Market R) (d : StockData R) (t : R) (g : Gen R) : Prop :=
  exists mu, model_paths m w d t g (fun u => - eta2 < u < eta1) (fun u =>
    brownian_exponent mu (getSigma d) u + jump_exponent lambda (double_exponential p eta1 eta2) u).

Theorem C122_kou_partial : forall lambda p eta1 eta2 muJ m w d t g,
  mdKind m = MKou lambda p eta1 eta2 muJ -> on_paths m w d t g ->
  0 <= p <= 1 -> 0 < lambda -> 0 < eta1 -> 0 < eta2 ->
  model_paths m w d t g (fun u => - eta2 < u < eta1) (fun u =>
    brownian_exponent (log_drift w d - lambda * (muJ - 1)) (getSigma d) u +
    jump_exponent lambda (fun u => (p * (eta1 / (eta1 - u)) + (1 - p)) * (eta2 / (eta2 + u))) u) /\
  (kou_claim lambda p eta1 eta2 m w d t g <-> p = 0).
Proof.
  intros lambda p eta1 eta2 muJ m w d t g K O P L E1 E2. pose proof O as (D & S0 & PP & T). pose proof (step_pos t g 0 PP T) as DT.
  match goal with |- ?A /\ _ => assert (M : A) end.
  { eapply (paths_of _ _ _ _ _ (kou_step d (mR w) t (getDim g) lambda p eta1 eta2 muJ)); [easy|apply kou_levy; lra|].
    intros f x E. rewrite K. cbn [kind_sampler]. unfold kou_sampler. apply E_new; [apply ctor_std|].
    apply E_new; [cbn [Distr_ctor]; now rewrite ctor_gt by nra|].
    apply E_new; [cbn [Distr_ctor]; unfold nleb, n0, n1; cbn; now rewrite Rle_bool_false by lra|].
    apply E_new; [cbn [Distr_ctor]; now rewrite ctor_gt by lra|]. apply E_new; [cbn [Distr_ctor]; now rewrite ctor_gt by lra|]. exact E. }
  split; [exact M|]. split.
  - intros (mu & C). destruct (Req_dec p 0) as [|P0]; [easy|exfalso].
    set (x := log_drift w d - lambda * (muJ - 1)) in *.
    assert (Q : forall u, - eta2 < u < eta1 -> u <> 0 -> lambda * p * eta1 = (x - mu) * ((eta1 - u) * (eta2 + u))).
    { intros u U U0. pose proof (levy_unique _ _ _ _ _ _ _ _ _ u O M C U U) as E.
      unfold brownian_exponent, jump_exponent, double_exponential in E. fold x in E.
      apply (Rmult_eq_reg_l u); [|easy].
      assert (F : x * u - mu * u = lambda * (p * (eta1 / (eta1 - u)) * (u / (eta2 + u)))).
      { transitivity (lambda * (p * (eta1 / (eta1 - u)) + (1 - p) * (eta2 / (eta2 + u)) - (p * (eta1 / (eta1 - u)) + (1 - p)) * (eta2 / (eta2 + u)))); [lra|]. field. lra. }
      replace (u * ((x - mu) * ((eta1 - u) * (eta2 + u)))) with ((x * u - mu * u) * ((eta1 - u) * (eta2 + u))) by ring.
      rewrite F. field. lra. }
    pose proof (Q (eta1 / 4) ltac:(lra) ltac:(lra)) as Q1. pose proof (Q (eta1 / 2) ltac:(lra) ltac:(lra)) as Q2. pose proof (Q (3 * eta1 / 4) ltac:(lra) ltac:(lra)) as Q3.
    assert (Z : (x - mu) * (eta1 * eta1) = 0) by nra.
    apply Rmult_integral in Z. destruct Z as [Z|Z]; [|nra]. rewrite Z, Rmult_0_l in Q1.
    assert (0 < lambda * p * eta1) by (apply Rmult_lt_0_compat; nra). lra.
  - intros ->. exists (log_drift w d - lambda * (muJ - 1)). intros a n H. specialize (M a H). cbv beta zeta in M. fold n in M.
    unfold levy_moment in *. rewrite (sum_ext n (fun j => _ + jump_exponent lambda (double_exponential 0 eta1 eta2) _)
      (fun j => brownian_exponent (log_drift w d - lambda * (muJ - 1)) (getSigma d) (tail_sum a n j) +
        jump_exponent lambda (fun u => (0 * (eta1 / (eta1 - u)) + (1 - 0)) * (eta2 / (eta2 + u))) (tail_sum a n j))); [exact M|].
    intros j J. unfold jump_exponent, double_exponential. ring.
Qed.
Print Assumptions C122_kou_partial.

Theorem C122_kou_refuted : exists (w : Market R) lambda p eta1 eta2 m d t,
  Kou_ctor "A" w lambda p eta1 eta2 = Ok m /\ deref (mdStock m) w = Ok d /\
  forall g, pseudo_path g 0 -> ~ kou_claim lambda p eta1 eta2 m w d t g.
Proof.
  exists (one_stock 1), 1, (1 / 2), 2, 1.
  eexists. exists (mkStock 1 1 None), 1. split; [|split].
  - unfold Kou_ctor, StockModel_ctor. cbn. unfold n0, n1; cbn. rewrite !Rlt_bool_false by lra. cbn. reflexivity.
  - reflexivity.
  - intros g P H.
    match type of H with kou_claim _ _ _ _ ?m ?w ?d ?t ?g =>
      pose proof (proj2 (C122_kou_partial 1 (1/2) 2 1 _ m w d t g eq_refl (conj eq_refl (conj Rlt_0_1 (conj P Rlt_0_1)))
        ltac:(lra) ltac:(lra) ltac:(lra) ltac:(lra))) as E end.
    apply E in H. lra.
Qed.
Print Assumptions C122_kou_refuted.

(** ** Variance gamma.  Full statement: for some drift the exponent is that of a Brownian
    motion run by a gamma clock of variance rate nu (model/variance_gamma_model.h, README).
    The clock of the code has the scale 1/nu (C39), so the full statement holds only when
    nu = 1 or there is no noise at all. *)
Definition vg_claim (nu theta : R) (m : StockModel R) (w : Market R) (d : StockData R) (t : R) (g : Gen R) : Prop :=
  exists mu, model_paths m w d t g (fun u => nu * clock_arg theta (getSigma d) u < 1) (fun u =>
    mu * u + vg_exponent nu theta (getSigma d) u).

Lemma arg_small : forall theta sigma c, 0 < c -> exists e, 0 < e /\ forall u, -e <= u <= e -> clock_arg theta sigma u < c.
Proof.
  intros theta sigma c C. set (A := Rabs theta + sigma * sigma + 1). assert (A1 : 1 <= A) by (unfold A; pose proof (Rabs_pos theta); nra).
  exists (Rmin 1 (c / (2 * A))). split; [apply Rmin_glb_lt; [lra|apply Rdiv_lt_0_compat; lra]|].
  set (e := Rmin 1 (c / (2 * A))). intros u U. assert (e <= 1) by apply Rmin_l. assert (EA : e * A <= c / 2).
  { replace (c / 2) with (c / (2 * A) * A) by (field; lra). apply Rmult_le_compat_r; [lra|apply Rmin_r]. }
  unfold clock_arg. assert (theta * u <= Rabs theta * e).
  { apply Rle_trans with (Rabs (theta * u)); [apply Rle_abs|]. rewrite Rabs_mult. apply Rmult_le_compat_l; [apply Rabs_pos|]. now apply Rabs_le. }
  assert (UU : u * u <= e) by nra. assert (sigma * sigma * (u * u) / 2 <= sigma * sigma * e) by nra.
  unfold A in EA. nra.
Qed.

Theorem C122_vg_partial : forall nu theta omega m w d t g,
  mdKind m = MVarianceGamma nu theta omega -> on_paths m w d t g -> 0 < nu ->
  model_paths m w d t g (fun u => clock_arg theta (getSigma d) u < nu) (fun u =>
    (getR w - dividend d + omega) * u - ln (1 - clock_arg theta (getSigma d) u / nu) / nu) /\
  (vg_claim nu theta m w d t g <-> nu = 1 \/ (theta = 0 /\ getSigma d = 0)).
Proof.
  intros nu theta omega m w d t g K O N. pose proof O as (D & S0 & PP & T). pose proof (step_pos t g 0 PP T) as DT.
  set (s := getSigma d) in *.
  match goal with |- ?A /\ _ => assert (M : A) end.
  { eapply (paths_of _ _ _ _ _ (vg_step d (mR w) t (getDim g) nu theta omega)); [easy|apply vg_levy; lra|].
    intros f x E. rewrite K. cbn [kind_sampler]. unfold vg_sampler. apply E_new; [apply ctor_std|].
    apply E_new; [cbn [Distr_ctor]; rewrite !ctor_gt by (try apply Rdiv_lt_0_compat; assumption); reflexivity|]. exact E. }
  split; [exact M|]. split.
  - intros (mu & C). destruct (Req_dec nu 1) as [|N1]; [now left|right].
    set (x := getR w - dividend d + omega) in *.
    destruct (arg_small theta s nu N) as (e1 & E1 & F1). destruct (arg_small theta s (/ nu) (Rinv_0_lt_compat _ N)) as (e2 & E2 & F2).
    assert (Q : forall u, 0 < u <= Rmin e1 e2 -> s * s = (u * u * (s * s * (s * s)) / 4 - theta * theta) * (nu + / nu)).
    { intros u U. pose proof (Rmin_l e1 e2). pose proof (Rmin_r e1 e2).
      assert (V : forall v, -u <= v <= u -> clock_arg theta s v < nu /\ nu * clock_arg theta s v < 1 /\
        ln (1 - clock_arg theta s v / nu) - ln (1 - nu * clock_arg theta s v) = (x - mu) * nu * v).
      { intros v Hv. assert (A1 : clock_arg theta s v < nu) by (apply F1; lra).
        assert (A2 : nu * clock_arg theta s v < 1).
        { replace 1 with (nu * / nu) by (field; lra). apply Rmult_lt_compat_l; [easy|]. apply F2. lra. }
        split; [easy|]. split; [easy|]. pose proof (levy_unique _ _ _ _ _ _ _ _ _ v O M C A1 A2) as E. cbv beta in E.
        unfold vg_exponent in E. apply (Rmult_eq_reg_r (/ nu)); [|now apply Rinv_neq_0_compat, Rgt_not_eq].
        replace ((x - mu) * nu * v * / nu) with (x * v - mu * v) by (field; lra). fold s in E.
        set (L1 := ln (1 - clock_arg theta s v / nu)) in *. set (L2 := ln (1 - nu * clock_arg theta s v)) in *. unfold Rdiv in E. lra. }
      destruct (V u ltac:(lra)) as (A1 & A2 & A3). destruct (V (- u) ltac:(lra)) as (B1 & B2 & B3).
      assert (POS : forall v, v < nu -> 0 < 1 - v / nu).
      { intros v Hv. apply (Rmult_lt_reg_r nu); [easy|]. replace ((1 - v / nu) * nu) with (nu - v) by (field; lra). lra. }
      pose proof (POS _ A1) as P1. pose proof (POS _ B1) as P2.
      assert (X : ln ((1 - clock_arg theta s u / nu) * (1 - clock_arg theta s (- u) / nu)) = ln ((1 - nu * clock_arg theta s u) * (1 - nu * clock_arg theta s (- u)))).
      { rewrite !ln_mult by lra. lra. }
      apply ln_inv in X; try (apply Rmult_lt_0_compat; lra).
      unfold clock_arg in X.
      assert (Y : (nu - / nu) * (u * u) * (s * s) = (nu - / nu) * (u * u) * ((u * u * (s * s * (s * s)) / 4 - theta * theta) * (nu + / nu))).
      { match type of X with ?l = ?r' => assert (Z : l - r' = 0) by lra end.
        match goal with |- ?l = ?r' => apply Rminus_diag_uniq end. rewrite <- Z. field. lra. }
      apply Rmult_eq_reg_l in Y; [exact Y|]. apply Rmult_integral_contrapositive. split; [|nra].
      intros Z. assert ((nu - 1) * (nu + 1) = 0) by (replace ((nu - 1) * (nu + 1)) with ((nu - / nu) * nu) by (field; lra); rewrite Z; ring).
      apply Rmult_integral in H1. lra. }
    set (e := Rmin e1 e2) in *. assert (E0 : 0 < e) by (now apply Rmin_glb_lt).
    pose proof (Q e ltac:(lra)) as Q1. pose proof (Q (e / 2) ltac:(lra)) as Q2.
    assert (IN : 0 < / nu) by (now apply Rinv_0_lt_compat). set (k := nu + / nu) in *. assert (K0 : 0 < k) by (unfold k; lra).
    assert (Z : k * (e * e) * (s * s * (s * s)) = 0) by nra.
    assert (S2 : s = 0).
    { apply Rmult_integral in Z. destruct Z as [Z|Z]; [|apply Rmult_integral in Z; apply Rsqr_0_uniq; now destruct Z].
      exfalso. assert (0 < k * (e * e)) by (repeat apply Rmult_lt_0_compat; easy). lra. }
    split; [|exact S2]. rewrite S2 in Q1.
    assert (TK : theta * theta * k = 0) by lra. apply Rmult_integral in TK. destruct TK as [TK|TK]; [now apply Rsqr_0_uniq|lra].
  - intros [N1|[TH SG]].
    + exists (getR w - dividend d + omega). intros a n H. fold s. specialize (M a). cbv beta zeta in M. fold n in M.
      unfold levy_moment in *. rewrite (sum_ext n (fun j => _ + vg_exponent nu theta s _)
        (fun j => (getR w - dividend d + omega) * tail_sum a n j - ln (1 - clock_arg theta s (tail_sum a n j) / nu) / nu)).
      * apply M. intros j J. specialize (H j J). fold s in H. subst nu. lra.
      * intros j J. unfold vg_exponent. subst nu. replace (clock_arg theta s (tail_sum a n j) / 1) with (1 * clock_arg theta s (tail_sum a n j)) by field. lra.
    + assert (A0 : forall u, clock_arg theta s u = 0) by (intros u; unfold clock_arg; rewrite TH, SG; lra).
      exists (getR w - dividend d + omega). intros a n H. fold s. specialize (M a). cbv beta zeta in M. fold n in M.
      unfold levy_moment in *. rewrite (sum_ext n (fun j => _ + vg_exponent nu theta s _)
        (fun j => (getR w - dividend d + omega) * tail_sum a n j - ln (1 - clock_arg theta s (tail_sum a n j) / nu) / nu)).
      * apply M. intros j J. now rewrite A0.
      * intros j J. unfold vg_exponent. rewrite A0. replace (0 / nu) with (nu * 0) by (field; lra). lra.
Qed.
Print Assumptions C122_vg_partial.

Theorem C122_vg_refuted : exists (w : Market R) nu theta m d t,
  VarianceGamma_ctor "A" w nu theta = Ok m /\ deref (mdStock m) w = Ok d /\
  forall g, pseudo_path g 0 -> ~ vg_claim nu theta m w d t g.
Proof.
  exists (one_stock 1), (1 / 2), (- (1 / 10)). eexists. exists (mkStock 1 1 None), 1. split; [|split].
  - unfold VarianceGamma_ctor, StockModel_ctor. cbn. unfold n0; cbn. rewrite !Rle_bool_false by lra. cbn. reflexivity.
  - reflexivity.
  - intros g P H.
    match type of H with vg_claim _ _ ?m ?w ?d ?t ?g =>
      pose proof (proj2 (C122_vg_partial (1/2) (- (1/10)) _ m w d t g eq_refl (conj eq_refl (conj Rlt_0_1 (conj P Rlt_0_1))) ltac:(lra))) as E end.
    apply E in H. cbn in H. lra.
Qed.
Print Assumptions C122_vg_refuted.
