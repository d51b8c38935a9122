(** The Gaussian integral and exponential moments. *)
From Coq Require Import List Reals Lra Lia.
From Coquelicot Require Import Coquelicot.
From Verif Require Import S_Prob.
Import ListNotations.
Local Open Scope R_scope.

Definition ee (t : R) : R := exp (- (t * t)).
Definition FF (x : R) : R := RInt ee 0 x.
Definition gg (x t : R) : R := exp (- (x * x * (1 + t * t))) / (1 + t * t).
Definition GG (x : R) : R := RInt (gg x) 0 1.

Lemma cont_of_derive : forall (f : R -> R) x, ex_derive f x -> continuous f x.
Proof. intros f x H. apply (@ex_derive_continuous R_AbsRing R_NormedModule f x H). Qed.

Lemma ee_cont : forall x, continuous ee x.
Proof. intros x. apply cont_of_derive. unfold ee. auto_derive. easy. Qed.

Lemma ex_int : forall (f : R -> R) a b, (forall x, continuous f x) -> ex_RInt f a b.
Proof. intros f a b C. apply (@ex_RInt_continuous R_CompleteNormedModule). intros z _. apply C. Qed.

Lemma FF_derive : forall x, is_derive FF x (ee x).
Proof.
  intros x. apply (is_derive_RInt ee FF 0 x).
  - apply filter_forall. intros y. apply (@RInt_correct R_CompleteNormedModule). apply ex_int, ee_cont.
  - apply ee_cont.
Qed.

Lemma q_pos : forall t, 0 < 1 + t * t.
Proof. intros. nra. Qed.

Lemma gg_derive : forall x t, is_derive (fun u => gg u t) x (- 2 * x * exp (- (x * x * (1 + t * t)))).
Proof.
  intros x t. pose proof (q_pos t). unfold gg. auto_derive; [lra|]. field. lra.
Qed.

Lemma gg_cont : forall x t, continuous (gg x) t.
Proof. intros x t. pose proof (q_pos t). apply cont_of_derive. unfold gg. auto_derive. lra. Qed.

Lemma GG_derive : forall x, is_derive GG x (RInt (fun t => - 2 * x * exp (- (x * x * (1 + t * t)))) 0 1).
Proof.
  intros x. unfold GG.
  replace (RInt (fun t => - 2 * x * exp (- (x * x * (1 + t * t)))) 0 1)
    with (RInt (fun t => Derive (fun u => gg u t) x) 0 1).
  2:{ apply RInt_ext. intros t _. apply is_derive_unique, gg_derive. }
  apply is_derive_RInt_param.
  - apply filter_forall. intros y t _. eexists. apply gg_derive.
  - intros t _.
    apply continuity_2d_pt_ext with (fun u v => - 2 * u * exp (- (u * u * (1 + v * v)))).
    { intros u v. symmetry. apply is_derive_unique, gg_derive. }
    apply continuity_2d_pt_mult.
    + apply continuity_2d_pt_mult; [apply continuity_2d_pt_const|apply continuity_2d_pt_id1].
    + apply (continuity_1d_2d_pt_comp exp).
      * apply derivable_continuous_pt, derivable_pt_exp.
      * apply continuity_2d_pt_opp, continuity_2d_pt_mult.
        apply continuity_2d_pt_mult; apply continuity_2d_pt_id1.
        apply continuity_2d_pt_plus; [apply continuity_2d_pt_const|].
        apply continuity_2d_pt_mult; apply continuity_2d_pt_id2.
  - apply filter_forall. intros y. apply ex_int. intros t. apply gg_cont.
Qed.

(** x * integral of exp(-x^2 t^2) over [0,1] is FF x. *)
Lemma FF_scale : forall x, FF x = x * RInt (fun t => ee (x * t)) 0 1.
Proof.
  intros x. unfold FF.
  pose proof (@RInt_comp_lin R_CompleteNormedModule ee x 0 0 1) as H.
  replace (x * 0 + 0) with 0 in H by ring. replace (x * 1 + 0) with x in H by ring.
  rewrite <- H by (apply ex_int, ee_cont).
  rewrite <- (@RInt_scal R_CompleteNormedModule).
  - apply RInt_ext. intros t _. unfold scal; cbn; unfold mult; cbn. now rewrite Rplus_0_r.
  - apply ex_int. intros t. apply cont_of_derive. unfold ee. auto_derive. easy.
Qed.

Lemma sum_const : forall x, is_derive (fun y => FF y * FF y + GG y) x 0.
Proof.
  intros x.
  assert (D : is_derive (fun y => FF y * FF y) x (ee x * FF x + FF x * ee x)).
  { apply is_derive_Reals. apply derivable_pt_lim_mult; apply is_derive_Reals, FF_derive. }
  pose proof (@is_derive_plus R_AbsRing R_NormedModule _ _ x _ _ D (GG_derive x)) as P.
  match type of P with is_derive _ _ ?v => assert (Z : v = 0) end.
  - change (ee x * FF x + FF x * ee x + RInt (fun t => - 2 * x * exp (- (x * x * (1 + t * t)))) 0 1 = 0).
    rewrite FF_scale.
    assert (E : RInt (fun t => - 2 * x * exp (- (x * x * (1 + t * t)))) 0 1 = - 2 * x * ee x * RInt (fun t => ee (x * t)) 0 1).
    { rewrite <- (@RInt_scal R_CompleteNormedModule _ 0 1 (- 2 * x * ee x)).
      2:{ apply ex_int. intros t. apply cont_of_derive. unfold ee. auto_derive. easy. }
      apply RInt_ext. intros t _. unfold scal; cbn; unfold mult; cbn. unfold ee.
      rewrite (Rmult_assoc (-2 * x) (exp _)), <- exp_plus. f_equal. f_equal. ring. }
    rewrite E. ring.
  - rewrite Z in P. exact P.
Qed.

Lemma GG_0 : GG 0 = PI / 4.
Proof.
  unfold GG. rewrite <- atan_1.
  apply is_RInt_unique. evar_last.
  - apply (@is_RInt_derive R_CompleteNormedModule atan (gg 0)).
    + intros t _. evar_last; [apply is_derive_atan|]. unfold gg. cbn. replace (- (0 * 0 * (1 + t * t))) with 0 by ring.
      rewrite exp_0. unfold Rsqr. field. pose proof (q_pos t). lra.
    + intros t _. apply gg_cont.
  - rewrite atan_0. unfold minus, plus, opp; cbn. ring.
Qed.

Lemma F2G : forall x, FF x * FF x + GG x = PI / 4.
Proof.
  intros x. rewrite <- GG_0. transitivity (FF 0 * FF 0 + GG 0).
  - destruct (Rle_dec 0 x) as [H|H].
    + destruct H as [H|<-]; [|reflexivity]. symmetry.
      apply (eq_is_derive (fun y => FF y * FF y + GG y) 0 x); [|easy]. intros. apply sum_const.
    + apply (eq_is_derive (fun y => FF y * FF y + GG y) x 0); [|lra]. intros. apply sum_const.
  - assert (FF 0 = 0) by apply (RInt_point 0 ee). rewrite H. ring.
Qed.

Lemma GG_bound : forall x, 0 <= GG x <= ee x.
Proof.
  intros x. split.
  - apply RInt_ge_0; [lra|apply ex_int; intros; apply gg_cont|].
    intros t _. unfold gg. apply Rlt_le. apply Rdiv_lt_0_compat; [apply exp_pos|apply q_pos].
  - replace (ee x) with (RInt (fun _ => ee x) 0 1).
    2:{ rewrite RInt_const. unfold scal; cbn; unfold mult; cbn. ring. }
    apply RInt_le; [lra|apply ex_int; intros; apply gg_cont|apply ex_int; intros; apply continuous_const|].
    intros t _. unfold gg, ee. pose proof (q_pos t).
    apply Rmult_le_reg_r with (1 + t * t); [easy|]. unfold Rdiv. rewrite Rmult_assoc, Rinv_l, Rmult_1_r by lra.
    assert (exp (- (x * x * (1 + t * t))) <= exp (- (x * x))).
    { destruct (Req_dec (x * x * (t * t)) 0) as [Z|Z]. right; f_equal; lra.
      left. apply exp_increasing. assert (0 <= x * x * (t * t)) by (apply Rmult_le_pos; nra). lra. }
    pose proof (exp_pos (- (x * x))). nra.
Qed.

Lemma ee_small : forall x, 0 < x -> ee x <= / (x * x).
Proof.
  intros x X. unfold ee. rewrite exp_Ropp. apply Rinv_le_contravar; [nra|].
  pose proof (exp_ineq1 (x * x)). assert (0 < x * x) by nra. lra.
Qed.

Lemma FF_nonneg : forall x, 0 <= x -> 0 <= FF x.
Proof.
  intros x X. apply RInt_ge_0; [easy|apply ex_int, ee_cont|]. intros t _. left. apply exp_pos.
Qed.

Lemma FF_lim : forall eps, 0 < eps -> exists A, 0 < A /\ forall x, A < x -> Rabs (FF x - sqrt PI / 2) < eps.
Proof.
  intros eps E. pose proof PI_RGT_0 as HPI. set (L := sqrt PI / 2).
  assert (HL : 0 < L) by (unfold L; pose proof (sqrt_lt_R0 PI HPI); lra).
  assert (L2 : L * L = PI / 4). { unfold L. pose proof (sqrt_sqrt PI ltac:(lra)). lra. }
  (* |F - L| (F + L) = G <= 1/x^2, so |F - L| <= 1/(L x^2) *)
  exists (1 + / (eps * L)). assert (0 < / (eps * L)) by (apply Rinv_0_lt_compat; nra).
  split; [lra|]. intros x X.
  pose proof (F2G x). pose proof (GG_bound x) as [G1 G2]. pose proof (ee_small x ltac:(lra)) as G3.
  pose proof (FF_nonneg x ltac:(lra)) as F0.
  assert (H1 : (L - FF x) * (L + FF x) = GG x) by nra.
  assert (H2 : 0 <= L - FF x). { destruct (Rle_dec 0 (L - FF x)); [easy|]. nra. }
  assert (H3 : (L - FF x) * L <= / (x * x)) by nra.
  assert (H4 : / (x * x) < eps * L).
  { rewrite <- (Rinv_inv (eps * L)). apply Rinv_lt_contravar.
    - apply Rmult_lt_0_compat; nra.
    - nra. }
  rewrite Rabs_left1 by lra. apply Rmult_lt_reg_r with L; [easy|]. nra.
Qed.

Lemma FF_odd : forall x, FF (- x) = - FF x.
Proof.
  intros x.
  assert (D : forall y, is_derive (fun y => FF (- y) + FF y) y 0).
  { intros y. evar_last.
    - apply @is_derive_plus; [|apply FF_derive].
      apply (is_derive_comp FF (fun y => - y)); [apply FF_derive|]. auto_derive; [easy|reflexivity].
    - unfold plus, scal; cbn; unfold mult; cbn. unfold ee. replace (- y * - y) with (y * y) by ring. ring. }
  assert (Z : FF 0 = 0) by apply (RInt_point 0 ee).
  assert (E : FF (- x) + FF x = FF (- 0) + FF 0).
  { destruct (Rtotal_order 0 x) as [H|[<-|H]]; [|reflexivity|].
    - symmetry. apply (eq_is_derive (fun y => FF (- y) + FF y) 0 x); [|easy]. intros. apply D.
    - apply (eq_is_derive (fun y => FF (- y) + FF y) x 0); [|easy]. intros. apply D. }
  rewrite Ropp_0, Z in E. lra.
Qed.

(** Antiderivative of the density. *)
Definition PF (x : R) : R := FF (x / sqrt 2) / sqrt PI.

Lemma s2 : 0 < sqrt 2. Proof. apply sqrt_lt_R0. lra. Qed.
Lemma sPI : 0 < sqrt PI. Proof. apply sqrt_lt_R0, PI_RGT_0. Qed.

Lemma PF_derive : forall x, is_derive PF x (phi x).
Proof.
  intros x. pose proof s2. pose proof sPI. unfold PF.
  assert (D : is_derive (fun y => FF (y / sqrt 2)) x (/ sqrt 2 * ee (x / sqrt 2))).
  { apply (is_derive_comp FF (fun y => y / sqrt 2)); [apply FF_derive|]. auto_derive; [easy|]. field. lra. }
  apply is_derive_Reals in D.
  apply is_derive_Reals. pose proof (derivable_pt_lim_scal _ (/ sqrt PI) _ _ D) as D'.
  unfold phi. rewrite sqrt_mult by (pose proof PI_RGT_0; lra).
  replace (exp (- (x * x) / 2) / (sqrt 2 * sqrt PI)) with (/ sqrt PI * (/ sqrt 2 * ee (x / sqrt 2))).
  - apply is_derive_Reals. apply is_derive_Reals in D'. eapply is_derive_ext; [|exact D'].
    intros t. change (/ sqrt PI * FF (t / sqrt 2) = FF (t / sqrt 2) / sqrt PI). unfold Rdiv. ring.
  - unfold ee. replace (- (x / sqrt 2 * (x / sqrt 2))) with (- (x * x) / 2).
    + field. lra.
    + replace (x / sqrt 2 * (x / sqrt 2)) with (x * x / (sqrt 2 * sqrt 2)) by (field; lra).
      rewrite sqrt_sqrt by lra. field.
Qed.

Lemma phi_cont : forall x, continuous phi x.
Proof.
  intros x. apply cont_of_derive. unfold phi. auto_derive.
  pose proof PI_RGT_0. pose proof (sqrt_lt_R0 (2 * PI) ltac:(lra)). repeat split; lra.
Qed.

Lemma PF_odd : forall x, PF (- x) = - PF x.
Proof.
  intros x. unfold PF. replace (- x / sqrt 2) with (- (x / sqrt 2)) by (unfold Rdiv; ring). rewrite FF_odd.
  unfold Rdiv. ring.
Qed.

Lemma PF_lim : forall eps, 0 < eps -> exists A, 0 < A /\ forall x, A < x -> Rabs (PF x - 1 / 2) < eps.
Proof.
  intros eps E. pose proof s2. pose proof sPI.
  destruct (FF_lim (eps * sqrt PI)) as (A & A0 & HA); [nra|].
  exists (A * sqrt 2). split; [nra|]. intros x X.
  assert (A < x / sqrt 2). { apply Rmult_lt_reg_r with (sqrt 2); [easy|]. replace (x / sqrt 2 * sqrt 2) with x by (field; lra). easy. }
  specialize (HA _ H1). unfold PF.
  replace (FF (x / sqrt 2) / sqrt PI - 1 / 2) with ((FF (x / sqrt 2) - sqrt PI / 2) / sqrt PI) by (field; lra).
  unfold Rdiv at 1. rewrite Rabs_mult, (Rabs_pos_eq (/ sqrt PI)) by (left; now apply Rinv_0_lt_compat).
  apply Rmult_lt_reg_r with (sqrt PI); [easy|]. rewrite Rmult_assoc, Rinv_l by lra. lra.
Qed.

(** A function with antiderivative [C * PF (z - s)] has integral [C]. *)
Lemma shifted_integral : forall (f : R -> R) C s, (forall z, f z = C * phi (z - s)) -> is_integral f C.
Proof.
  intros f C s Hf eps E.
  assert (D : forall z, is_derive (fun z => C * PF (z - s)) z (f z)).
  { intros z. rewrite Hf. apply is_derive_scal.
    evar_last. apply (is_derive_comp PF (fun z => z - s)); [apply PF_derive|]. auto_derive; [easy|reflexivity].
    unfold scal; cbn; unfold mult; cbn. ring. }
  assert (Cf : forall z, continuous f z).
  { intros z. apply continuous_ext with (fun z => C * phi (z - s)). intros; now rewrite Hf.
    apply (@continuous_mult R_UniformSpace R_AbsRing). apply continuous_const.
    apply (continuous_comp (fun z => z - s) phi); [|apply phi_cont].
    apply cont_of_derive. auto_derive. easy. }
  assert (P : 0 < eps / (2 * (Rabs C + 1))).
  { pose proof (Rabs_pos C). apply Rdiv_lt_0_compat; lra. }
  destruct (PF_lim _ P) as (A & A0 & HA).
  exists (A + Rabs s). pose proof (Rabs_pos s). split; [lra|]. intros a b Ha Hb.
  exists (C * PF (b - s) - C * PF (a - s)). split.
  - apply (@is_RInt_derive R_CompleteNormedModule (fun z => C * PF (z - s)) f); intros; [apply D|apply Cf].
  - pose proof (Rle_abs s). pose proof (Rle_abs (- s)) as H1. rewrite Rabs_Ropp in H1.
    pose proof (HA (b - s) ltac:(lra)) as B1. pose proof (HA (- (a - s)) ltac:(lra)) as B2.
    rewrite PF_odd in B2.
    replace (C * PF (b - s) - C * PF (a - s) - C)
      with (C * ((PF (b - s) - 1 / 2) + (- PF (a - s) - 1 / 2))) by field.
    rewrite Rabs_mult. pose proof (Rabs_pos C).
    apply Rle_lt_trans with (Rabs C * (eps / (Rabs C + 1))).
    + apply Rmult_le_compat_l; [easy|]. eapply Rle_trans; [apply Rabs_triang|].
      replace (eps / (Rabs C + 1)) with (eps / (2 * (Rabs C + 1)) + eps / (2 * (Rabs C + 1))) by (field; lra). lra.
    + replace (Rabs C * (eps / (Rabs C + 1))) with (eps * (Rabs C / (Rabs C + 1))) by (field; lra).
      assert (Rabs C / (Rabs C + 1) < 1).
      { apply Rmult_lt_reg_r with (Rabs C + 1); [lra|]. unfold Rdiv. rewrite Rmult_assoc, Rinv_l by lra. lra. }
      nra.
Qed.

Lemma is_integral_unique : forall f m1 m2, is_integral f m1 -> is_integral f m2 -> m1 = m2.
Proof.
  intros f m1 m2 H1 H2. destruct (Req_dec m1 m2) as [E|N]; [easy|exfalso].
  assert (0 < Rabs (m1 - m2) / 2) by (pose proof (Rabs_pos_lt (m1 - m2) ltac:(lra)); lra).
  destruct (H1 _ H) as (A1 & P1 & K1). destruct (H2 _ H) as (A2 & P2 & K2).
  set (B := A1 + A2 + 1).
  destruct (K1 (- B) B) as (I1 & R1 & E1); try (unfold B; lra).
  destruct (K2 (- B) B) as (I2 & R2 & E2); try (unfold B; lra).
  assert (I1 = I2).
  { rewrite <- (is_RInt_unique _ _ _ _ R1). now rewrite <- (is_RInt_unique _ _ _ _ R2). }
  subst I2. assert (Rabs (m1 - m2) <= Rabs (I1 - m1) + Rabs (I1 - m2)).
  { replace (m1 - m2) with (- (I1 - m1) + (I1 - m2)) by ring. eapply Rle_trans; [apply Rabs_triang|].
    rewrite Rabs_Ropp. lra. }
  lra.
Qed.

Lemma is_integral_ext : forall f g m, (forall x, f x = g x) -> is_integral f m -> is_integral g m.
Proof.
  intros f g m E H eps P. destruct (H eps P) as (A & A0 & K). exists A. split; [easy|]. intros a b Ha Hb.
  destruct (K a b Ha Hb) as (I & HI & B). exists I. split; [|easy]. eapply is_RInt_ext; [|exact HI]. intros; apply E.
Qed.

Lemma is_Enormal_ext : forall f g m, (forall x, f x = g x) -> is_Enormal f m -> is_Enormal g m.
Proof. intros f g m E. apply is_integral_ext. intros x. now rewrite E. Qed.

Lemma is_Enormal_unique : forall f m1 m2, is_Enormal f m1 -> is_Enormal f m2 -> m1 = m2.
Proof. intros f m1 m2. apply is_integral_unique. Qed.

(** Exponential moments. *)
Lemma Enormal_exp : forall C a b, is_Enormal (fun z => C * exp (a + b * z)) (C * exp (a + b * b / 2)).
Proof.
  intros C a b. unfold is_Enormal. apply (shifted_integral _ _ b). intros z. unfold phi, Rdiv.
  rewrite (Rmult_assoc C), <- (Rmult_assoc (exp _) (exp _)), <- exp_plus.
  rewrite <- (Rmult_assoc (C * exp _)), (Rmult_assoc C (exp _) (exp _)), <- exp_plus, Rmult_assoc.
  f_equal. f_equal. f_equal. field.
Qed.

Lemma Enormal_const : forall C, is_Enormal (fun _ => C) C.
Proof.
  intros C. pose proof (Enormal_exp C 0 0) as H.
  replace (C * exp (0 + 0 * 0 / 2)) with C in H by (replace (0 + 0 * 0 / 2) with 0 by field; rewrite exp_0; ring).
  eapply is_Enormal_ext; [|exact H].
  intros x. cbn. replace (0 + 0 * x) with 0 by ring. rewrite exp_0. ring.
Qed.

Lemma is_Enormals_ext : forall n F G m, (forall l, length l = n -> F l = G l) -> is_Enormals n F m -> is_Enormals n G m.
Proof.
  induction n as [|n IH]; intros F G m E H; cbn in *.
  - rewrite <- E by easy. exact H.
  - destruct H as (h & H1 & H2). exists h. split; [|easy]. intros z. eapply IH; [|apply H1].
    intros l L. apply E. cbn. now f_equal.
Qed.

Lemma is_Enormals_unique : forall n F m1 m2, is_Enormals n F m1 -> is_Enormals n F m2 -> m1 = m2.
Proof.
  induction n as [|n IH]; intros F m1 m2 H1 H2; cbn in *; [congruence|].
  destruct H1 as (h1 & A1 & B1). destruct H2 as (h2 & A2 & B2).
  eapply is_Enormal_unique; [exact B1|]. eapply is_Enormal_ext; [|exact B2].
  intros z. eapply IH; [apply A2|apply A1].
Qed.

(** Products of independent log-normals. *)
Lemma Enormals_sum : forall n C a mu s,
  is_Enormals n (fun l => C * exp (a + fold_right (fun z acc => mu + s * z + acc) 0 l))
    (C * exp a * exp (mu + s * s / 2) ^ n).
Proof.
  induction n as [|n IH]; intros C a mu s; cbn [is_Enormals].
  - cbn. rewrite Rplus_0_r. ring.
  - exists (fun z => C * exp (a + mu + s * z) * exp (mu + s * s / 2) ^ n). split.
    + intros z. eapply is_Enormals_ext; [|apply (IH C (a + mu + s * z) mu s)].
      intros l _. cbn [fold_right]. f_equal. f_equal. ring.
    + set (q := exp (mu + s * s / 2) ^ n).
      eapply is_Enormal_ext; [|replace (C * exp a * exp (mu + s * s / 2) ^ S n)
         with ((C * q) * exp ((a + mu) + s * s / 2)); [apply (Enormal_exp (C * q) (a + mu) s)|]].
      * intros z. cbn. ring.
      * cbn [pow]. fold q. replace (a + mu + s * s / 2) with (a + (mu + s * s / 2)) by ring. rewrite exp_plus. ring.
Qed.

(** Poisson mixture of powers. *)
Lemma Epoisson_pow : forall l C x, is_Epoisson l (fun n => C * x ^ n) (C * exp (l * (x - 1))).
Proof.
  intros l C x. unfold is_Epoisson.
  pose proof (is_exp_Reals (l * x)) as H. unfold is_pseries in H.
  apply (is_series_ext (fun n => scal (C * exp (- l)) (scal (pow_n (l * x) n) (/ INR (fact n))))).
  - intros n. unfold scal; cbn; unfold mult; cbn. rewrite pow_n_pow, Rpow_mult_distr. field. apply INR_fact_neq_0.
  - replace (C * exp (l * (x - 1))) with (scal (C * exp (- l)) (exp (l * x))).
    + now apply (@is_series_scal R_AbsRing R_NormedModule).
    + unfold scal; cbn; unfold mult; cbn. rewrite Rmult_assoc, <- exp_plus. f_equal. f_equal. ring.
Qed.

Lemma is_Epoisson_unique : forall l f m1 m2, is_Epoisson l f m1 -> is_Epoisson l f m2 -> m1 = m2.
Proof.
  intros l f m1 m2 H1 H2. unfold is_Epoisson in *.
  apply is_series_unique in H1. apply is_series_unique in H2. congruence.
Qed.
