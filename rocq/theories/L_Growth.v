(** Expected growth of the simulated prices, one step and along a path. *)
From Coq Require Import String List ZArith Reals Bool Lra Lia.
From Coquelicot Require Import Coquelicot.
From Flocq Require Import Core.
From Verif Require Import M_Num M_Outcome M_Dict M_Stock M_Market M_Random M_Model
  S_Market S_Model S_Prob S_Expect L_Gauss L_Martingale L_Expect L_Sampler.
Import ListNotations.
Local Open Scope R_scope.

(** ** The gamma law *)
Section Positive.
Variable f : R -> R.
Hypothesis fc : forall x, 0 < x -> continuous f x.
Hypothesis fp : forall x, 0 < x -> 0 < f x.

Lemma pos_ex : forall a b, 0 < a -> 0 < b -> ex_RInt f a b.
Proof.
  intros a b A B. apply (@ex_RInt_continuous R_CompleteNormedModule). intros z Z. apply fc.
  pose proof (Rmin_glb_lt a b 0 A B). lra.
Qed.
Lemma pos_widen : forall a a' b' b, 0 < a <= a' -> a' <= b' <= b -> RInt f a' b' <= RInt f a b.
Proof.
  intros a a' b' b A B.
  rewrite <- (RInt_Chasles f a a' b) by (apply pos_ex; lra). rewrite <- (RInt_Chasles f a' b' b) by (apply pos_ex; lra).
  assert (0 <= RInt f a a') by (apply RInt_ge_0; [lra|apply pos_ex; lra|intros; left; apply fp; lra]).
  assert (0 <= RInt f b' b) by (apply RInt_ge_0; [lra|apply pos_ex; lra|intros; left; apply fp; lra]).
  change (RInt f a' b' <= RInt f a a' + (RInt f a' b' + RInt f b' b)). lra.
Qed.

Lemma pos_total : forall M, (forall a b, 0 < a <= 1 -> 1 <= b -> RInt f a b <= M) ->
  exists total, 0 < total /\ is_integral_pos f total.
Proof.
  intros M B. set (E := fun x => exists a b, 0 < a <= 1 /\ 1 <= b /\ x = RInt f a b).
  destruct (completeness E) as (tot & U & L).
  - exists M. intros x (a & b & A & Bb & ->). now apply B.
  - exists (RInt f 1 1), 1, 1. lra.
  - exists tot. split.
    + apply Rlt_le_trans with (RInt f 1 2); [|apply U; exists 1, 2; repeat split; lra].
      apply RInt_gt_0; [lra|intros; apply fp; lra|intros x X; apply fc; lra].
    + intros eps Ep. assert (exists a b, 0 < a <= 1 /\ 1 <= b /\ tot - eps < RInt f a b) as (a & b & A & Bb & G).
      { destruct (Classical_Prop.classic (exists a b, 0 < a <= 1 /\ 1 <= b /\ tot - eps < RInt f a b)) as [H|H]; [exact H|exfalso].
        assert (tot <= tot - eps); [|lra]. apply L. intros x (a & b & A & Bb & ->).
        destruct (Rle_dec (RInt f a b) (tot - eps)); [easy|]. exfalso. apply H. exists a, b. lra. }
      exists a, (b + 1). split; [lra|]. intros x y X Y. exists (RInt f x y). split.
      * apply (@RInt_correct R_CompleteNormedModule). apply pos_ex; lra.
      * assert (RInt f a b <= RInt f x y) by (apply pos_widen; lra).
        assert (RInt f x y <= tot) by (apply U; exists x, y; repeat split; lra).
        apply Rabs_def1; lra.
Qed.
End Positive.

Lemma weight_derivable : forall k s x, 0 < x -> ex_derive (gamma_weight k s) x.
Proof. intros k s x X. unfold gamma_weight, Rpower. auto_derive. repeat split; easy. Qed.

Lemma ln_le_sub : forall y, 0 < y -> ln y <= y - 1.
Proof.
  intros y Y. destruct (Req_dec y 1) as [->|N]; [rewrite ln_1; lra|].
  assert (L : ln y <> 0) by (intros L; apply N; rewrite <- (exp_ln y Y), L; apply exp_0).
  pose proof (exp_ineq1 (ln y) L). rewrite exp_ln in H by easy. lra.
Qed.

Lemma gamma_total : forall k s, 0 < k -> 0 < s -> exists total, 0 < total /\ is_integral_pos (gamma_weight k s) total.
Proof.
  intros k s K S. set (ep := 1 / (2 * s * k)). assert (E0 : 0 < ep) by (unfold ep; apply Rdiv_lt_0_compat; [lra|nra]).
  set (D := exp (k * (- 1 - ln ep))). assert (D0 : 0 < D) by apply exp_pos.
  assert (FC : forall x, 0 < x -> continuous (gamma_weight k s) x) by (intros; apply cont_of_derive, weight_derivable; easy).
  assert (FP : forall x, 0 < x -> 0 < gamma_weight k s x) by (intros; apply gamma_weight_pos).
  apply (pos_total _ FC FP (1 / k + 2 * s * D)).
  intros a b A B. rewrite <- (RInt_Chasles (gamma_weight k s) a 1 b) by (apply (pos_ex _ FC); lra).
  apply Rplus_le_compat.
  - apply Rle_trans with (RInt (fun x => Rpower x (k - 1)) a 1).
    + apply RInt_le; [lra|apply (pos_ex _ FC); lra| |].
      * apply (@ex_RInt_continuous R_CompleteNormedModule). intros z Z. rewrite Rmin_left in Z by lra.
        apply cont_of_derive. unfold Rpower. auto_derive. lra.
      * intros x X. unfold gamma_weight. rewrite <- (Rmult_1_r (Rpower x (k - 1))) at 2. apply Rmult_le_compat_l; [left; apply exp_pos|].
        rewrite <- exp_0. apply exp_le. assert (0 < x / s) by (apply Rdiv_lt_0_compat; lra). lra.
    + assert (I : is_RInt (fun x => Rpower x (k - 1)) a 1 (minus (Rpower 1 k / k) (Rpower a k / k))).
      { apply (@is_RInt_derive R_CompleteNormedModule (fun x => Rpower x k / k)).
        - intros x X. rewrite Rmin_left in X by lra. unfold Rpower. auto_derive; [lra|].
          replace ((k - 1) * ln x) with (k * ln x + - ln x) by ring. rewrite exp_plus, exp_Ropp, exp_ln by lra. field. lra.
        - intros x X. rewrite Rmin_left in X by lra. apply cont_of_derive. unfold Rpower. auto_derive. lra. }
      rewrite (is_RInt_unique _ _ _ _ I). unfold minus, plus, opp; cbn.
      assert (Rpower 1 k = 1) as -> by (unfold Rpower; rewrite ln_1, Rmult_0_r; apply exp_0).
      assert (0 < Rpower a k / k) by (apply Rdiv_lt_0_compat; [apply exp_pos|easy]). lra.
  - set (c := / (2 * s)). assert (C0 : 0 < c) by (unfold c; apply Rinv_0_lt_compat; lra).
    apply Rle_trans with (RInt (fun x => D * exp (- (c * x))) 1 b).
    + apply RInt_le; [lra|apply (pos_ex _ FC); lra| |].
      * apply ex_int. intros z. apply cont_of_derive. auto_derive. easy.
      * intros x X. unfold gamma_weight, D, Rpower. rewrite <- !exp_plus. apply exp_le.
        assert (L0 : 0 < ln x) by (rewrite <- ln_1; apply ln_increasing; lra).
        pose proof (ln_le_sub (ep * x) ltac:(nra)) as L1. rewrite ln_mult in L1 by lra.
        assert (k * (ep * x) = c * x) by (unfold ep, c; field; lra).
        assert (x / s = 2 * (c * x)) by (unfold c; field; lra). nra.
    + assert (I : is_RInt (fun x => D * exp (- (c * x))) 1 b (minus (- (D / c) * exp (- (c * b))) (- (D / c) * exp (- (c * 1))))).
      { apply (@is_RInt_derive R_CompleteNormedModule (fun x => - (D / c) * exp (- (c * x)))).
        - intros x _. auto_derive; [easy|]. field. lra.
        - intros x _. apply cont_of_derive. auto_derive. easy. }
      rewrite (is_RInt_unique _ _ _ _ I). unfold minus, plus, opp; cbn.
      assert (D / c = 2 * s * D) by (unfold c; field; lra). assert (0 < D / c) by (apply Rdiv_lt_0_compat; lra).
      pose proof (exp_pos (- (c * b))).
      assert (exp (- (c * 1)) <= exp 0) by (apply exp_le; lra). rewrite exp_0 in *. nra.
Qed.

Lemma integral_pos_scale : forall f m c, 0 < c -> is_integral_pos f m -> is_integral_pos (fun x => c * f (c * x)) m.
Proof.
  intros f m c C H eps E. destruct (H eps E) as (d & A & D & K). exists (d / c), (A / c). split.
  - split; [now apply Rdiv_lt_0_compat|]. unfold Rdiv. apply Rmult_lt_compat_r; [now apply Rinv_0_lt_compat|easy].
  - intros a b Ha Hb. destruct (K (c * a) (c * b)) as (I & HI & B).
    + split; [nra|]. apply (Rmult_lt_reg_r (/ c)); [now apply Rinv_0_lt_compat|]. replace (c * a * / c) with a by (field; lra). apply Ha.
    + apply (Rmult_lt_reg_r (/ c)); [now apply Rinv_0_lt_compat|]. replace (c * b * / c) with b by (field; lra). apply Hb.
    + exists I. split; [|easy].
      pose proof (@is_RInt_comp_lin R_NormedModule f c 0 a b I) as L. rewrite !Rplus_0_r in L. specialize (L HI).
      eapply is_RInt_ext; [|exact L]. intros x _. cbn. unfold scal; cbn; unfold mult; cbn. now rewrite Rplus_0_r.
Qed.

Lemma gamma_exp : forall k s b C, 0 < k -> 0 < s -> b * s < 1 ->
  is_law (SGamma k s) (fun x => C * exp (b * x)) (C * Rpower (1 - b * s) (- k)).
Proof.
  intros k s b C K S B. destruct (gamma_total k s K S) as (Z & Zp & W). exists Z. split; [easy|]. split; [easy|].
  set (c := 1 - b * s). assert (C0 : 0 < c) by (unfold c; lra).
  pose proof (integral_pos_scale _ _ c C0 W) as H.
  pose proof (integral_pos_lin _ _ _ _ (C * Rpower c (- k)) 0 H H) as L.
  replace (C * Rpower c (- k) * Z + 0 * Z) with (C * Rpower c (- k) * Z) in L by ring.
  eapply integral_pos_ext; [|exact L]. intros x X. cbn. unfold gamma_weight, Rpower.
  rewrite ln_mult by lra.
  replace (C * exp (- k * ln c) * (c * (exp ((k - 1) * (ln c + ln x)) * exp (- (c * x / s)))) + 0 * (c * (exp ((k - 1) * (ln c + ln x)) * exp (- (c * x / s)))))
    with (C * (exp (- k * ln c) * exp (ln c) * exp ((k - 1) * (ln c + ln x)) * exp (- (c * x / s)))) by (rewrite exp_ln by easy; ring).
  rewrite (Rmult_assoc C (exp (b * x))). f_equal. rewrite <- !exp_plus. f_equal.
  replace (c * x / s) with (x / s - b * x) by (unfold c; field; lra). ring.
Qed.

(** The mean, by parts. *)
Lemma gamma_mean : forall k s, 0 < k -> 0 < s -> is_law (SGamma k s) (fun x => x) (k * s).
Proof.
  intros k s K S. destruct (gamma_total k s K S) as (Z & Zp & W). exists Z. split; [easy|]. split; [easy|].
  set (F := fun x => - s * (exp (k * ln x) * exp (- (x / s)))).
  assert (FI : forall a b, 0 < a <= b -> is_RInt (fun x => x * gamma_weight k s x - k * s * gamma_weight k s x) a b (F b - F a)).
  { intros a b AB. apply (@is_RInt_derive R_CompleteNormedModule F).
    - intros x X. rewrite Rmin_left in X by lra. unfold F, gamma_weight, Rpower. auto_derive; [lra|].
      replace ((k - 1) * ln x) with (k * ln x + - ln x) by ring. rewrite (exp_plus (k * ln x) (- ln x)), (exp_Ropp (ln x)), (exp_ln x) by lra.
      replace (x * / s) with (x / s) by reflexivity. field. lra.
    - intros x X. rewrite Rmin_left in X by lra. apply cont_of_derive. unfold gamma_weight, Rpower. auto_derive. lra. }
  assert (F0 : forall eps, 0 < eps -> exists d, 0 < d /\ forall a, 0 < a < d -> Rabs (F a) < eps).
  { intros eps E. exists (exp (ln (eps / s) / k)). split; [apply exp_pos|]. intros a (A & B).
    assert (L : k * ln a < ln (eps / s)).
    { apply ln_increasing in B; [|easy]. rewrite ln_exp in B. apply (Rmult_lt_compat_l k) in B; [|easy].
      replace (k * (ln (eps / s) / k)) with (ln (eps / s)) in B by (field; lra). exact B. }
    apply exp_increasing in L. rewrite exp_ln in L by (now apply Rdiv_lt_0_compat).
    assert (E1 : exp (- (a / s)) < 1). { rewrite <- exp_0. apply exp_increasing. assert (0 < a / s) by (now apply Rdiv_lt_0_compat). lra. }
    pose proof (exp_pos (- (a / s))). pose proof (exp_pos (k * ln a)).
    apply (Rmult_lt_compat_l s) in L; [|easy]. replace (s * (eps / s)) with eps in L by (field; lra).
    unfold F. rewrite Rabs_left; [|assert (0 < s * (exp (k * ln a) * exp (- (a / s)))) by (repeat apply Rmult_lt_0_compat; easy); lra].
    assert (exp (k * ln a) * exp (- (a / s)) <= exp (k * ln a)) by nra. nra. }
  assert (F1 : forall eps, 0 < eps -> exists A, 0 < A /\ forall b, A < b -> Rabs (F b) < eps).
  { intros eps E. set (e := 1 / (2 * s * k)). assert (E0 : 0 < e) by (unfold e; apply Rdiv_lt_0_compat; [lra|nra]).
    set (C := k * (- 1 - ln e)).
    set (A := Rmax 1 (2 * s * (C - ln (eps / s)))). assert (A1 : 1 <= A) by apply Rmax_l.
    assert (A2 : 2 * s * (C - ln (eps / s)) <= A) by apply Rmax_r.
    exists A. split; [lra|]. intros b B.
    assert (L : k * ln b + - (b / s) < ln (eps / s)).
    { pose proof (ln_le_sub (e * b) ltac:(nra)) as L1. rewrite ln_mult in L1 by lra.
      assert (K1 : k * (e * b) = b / (2 * s)) by (unfold e; field; lra).
      assert (K2 : b / s = 2 * (b / (2 * s))) by (field; lra).
      assert (K3 : C - ln (eps / s) < b / (2 * s)).
      { apply (Rmult_lt_reg_l (2 * s)); [lra|]. replace (2 * s * (b / (2 * s))) with b by (field; lra). lra. }
      unfold C in K3. nra. }
    apply exp_increasing in L. rewrite exp_ln in L by (now apply Rdiv_lt_0_compat). rewrite exp_plus in L.
    apply (Rmult_lt_compat_l s) in L; [|easy]. replace (s * (eps / s)) with eps in L by (field; lra).
    unfold F. pose proof (exp_pos (k * ln b)). pose proof (exp_pos (- (b / s))).
    rewrite Rabs_left; [lra|]. assert (0 < s * (exp (k * ln b) * exp (- (b / s)))) by (repeat apply Rmult_lt_0_compat; easy). lra. }
  intros eps E. destruct (F0 (eps / 4) ltac:(lra)) as (d0 & D0 & B0). destruct (F1 (eps / 4) ltac:(lra)) as (A1 & AP & B1).
  assert (KS : 0 < k * s) by nra.
  destruct (W (eps / (2 * (k * s))) ltac:(apply Rdiv_lt_0_compat; lra)) as (d & A & DA & HW).
  exists (Rmin d d0), (Rmax A A1). split.
  { split; [apply Rmin_glb_lt; lra|]. pose proof (Rmin_l d d0). pose proof (Rmax_l A A1). lra. }
  intros a b Ha Hb. pose proof (Rmin_l d d0). pose proof (Rmin_r d d0). pose proof (Rmax_l A A1). pose proof (Rmax_r A A1).
  destruct (HW a b ltac:(lra) ltac:(lra)) as (I & HI & BI).
  exists (F b - F a + k * s * I). split.
  - pose proof (@is_RInt_plus R_NormedModule _ _ _ _ _ _ (FI a b ltac:(lra)) (@is_RInt_scal R_NormedModule _ _ _ (k * s) _ HI)) as P.
    eapply is_RInt_ext; [|exact P]. intros x _. cbn. unfold plus, scal; cbn. unfold mult; cbn. ring.
  - specialize (B0 a ltac:(lra)). specialize (B1 b ltac:(lra)).
    assert (Rabs (k * s * (I - Z)) < eps / 2).
    { rewrite Rabs_mult, (Rabs_pos_eq (k * s)) by lra. apply (Rmult_lt_compat_l (k * s)) in BI; [|easy].
      replace (k * s * (eps / (2 * (k * s)))) with (eps / 2) in BI by (field; lra). exact BI. }
    replace (F b - F a + k * s * I - k * s * Z) with (F b - F a + k * s * (I - Z)) by ring.
    revert B0 B1 H3. unfold Rabs. repeat destruct (Rcase_abs _); lra.
Qed.

(** ** One-step expectations *)
Lemma E_draw : forall s f m, is_law s f m -> is_E (pdraw s) f m.
Proof. intros s f m H. exists f. split; [easy|exact H]. Qed.

Lemma E_normal : forall C a b, is_E (pdraw (SNormal 0 1)) (fun z => C * exp (a + b * z)) (C * exp (a + b * b / 2)).
Proof.
  intros C a b. apply E_draw. cbn. eapply is_Enormal_ext; [|apply Enormal_exp]. intros z. cbn. f_equal. f_equal. ring.
Qed.

Lemma E_jump : forall C mu s, is_E (pdraw (SNormal mu s)) (fun z => C * exp z) (C * exp (mu + s * s / 2)).
Proof. intros C mu s. apply E_draw. cbn. eapply is_Enormal_ext; [|apply Enormal_exp]. reflexivity. Qed.

(** A loop multiplying the expectation by [q] each turn. *)
Lemma E_piter : forall {X} (v : X -> R) (body : X -> sampler X) q, (forall x, is_E (body x) v (q * v x)) ->
  forall n x, is_E (piter n body x) v (q ^ n * v x).
Proof.
  intros X v body q H n. induction n as [|n IH]; intros x; cbn [piter].
  - cbn. ring.
  - apply (E_bind _ _ _ (fun y => q ^ n * v y)); [|intros; apply IH].
    replace (q ^ S n * v x) with (q ^ n * (q * v x)) by (cbn; ring). now apply E_scal.
Qed.

Lemma E_count : forall {A} l (k : Z -> sampler A) f C x, (forall n, is_E (k (Z.of_nat n)) f (C * x ^ n)) ->
  is_E (pbind (pcount l) k) f (C * exp (l * (x - 1))).
Proof. intros A l k f C x H. exists (fun n => C * x ^ n). split; [exact H|apply Epoisson_pow]. Qed.

Lemma exp_ge : forall x, x + 1 <= exp x.
Proof. intros x. destruct (Req_dec x 0) as [->|N]; [rewrite exp_0; lra|]. pose proof (exp_ineq1 x N). lra. Qed.

Lemma half_R : (@nhalf R Rnum) = / 2.
Proof. rewrite nhalf_R. lra. Qed.
Lemma npos_R : forall v, npos v = Rmax v 0.
Proof.
  intros v. unfold npos, nmax, n0; cbn. case Rlt_bool_spec; intros H; [rewrite Rmax_right|rewrite Rmax_left]; lra.
Qed.

Section Step.
Variables (d : StockData R) (r t : R) (n : Z).
Let dt := t / IZR n.
Hypothesis dt0 : 0 <= dt.

Lemma coupon_dividend : coupon d = dividend d.
Proof. reflexivity. Qed.

Lemma gbm_growth : forall S, is_E (gbm_step d r t n S) (fun x => x) (exp ((r - dividend d) * dt) * S).
Proof.
  intros S. unfold gbm_step. fold dt. apply E_map.
  replace (exp ((r - dividend d) * dt) * S) with (S * exp ((r - coupon d - nhalf * getSigma d * getSigma d) * dt + getSigma d * sqrt dt * (getSigma d * sqrt dt) / 2)).
  { apply E_normal. }
  rewrite Rmult_comm. f_equal. f_equal. rewrite half_R. pose proof (sqrt_sqrt dt dt0). rewrite coupon_dividend. nra.
Qed.

(** Two correlated normals *)
Lemma E_two : forall C a b rho, -1 <= rho <= 1 ->
  is_E (pbind (pdraw (SNormal 0 1)) (fun z1 => pbind (pdraw (SNormal 0 1)) (fun z2 => Done (Ok (z1, z2)))))
    (fun z => C * exp (a + b * (rho * fst z + sqrt (1 - rho * rho) * snd z))) (C * exp (a + b * b / 2)).
Proof.
  intros C a b rho H. set (q := sqrt (1 - rho * rho)). assert (Q : q * q = 1 - rho * rho) by (apply sqrt_sqrt; nra).
  apply (E_bind _ _ _ (fun z1 => C * exp ((a + b * q * (b * q) / 2) + b * rho * z1))).
  - replace (a + b * b / 2) with (a + b * q * (b * q) / 2 + b * rho * (b * rho) / 2) by nra. apply E_normal.
  - intros z1. apply E_map. cbn [fst snd].
    replace (C * exp (a + b * q * (b * q) / 2 + b * rho * z1)) with (C * exp ((a + b * rho * z1) + b * q * (b * q) / 2)) by (f_equal; f_equal; ring).
    eapply E_ext; [|apply E_normal]. intros z2. cbn. f_equal. f_equal. ring.
Qed.

Lemma heston_growth : forall kappa theta sigma_v rho disc x, -1 <= rho <= 1 ->
  is_E (heston_step d r t n kappa theta sigma_v rho disc x) fst (exp ((r - dividend d) * dt) * fst x).
Proof.
  intros kappa theta sigma_v rho disc [S V] Rho. unfold heston_step. fold dt. cbn [fst snd].
  set (b := sqrt (npos V * dt)). assert (BB : b * b = npos V * dt).
  { apply sqrt_sqrt. rewrite npos_R. apply Rmult_le_pos; [apply Rmax_r|easy]. }
  replace (exp ((r - dividend d) * dt) * S) with (S * exp ((r - coupon d - nhalf * npos V) * dt + b * b / 2)).
  2:{ rewrite Rmult_comm. f_equal. f_equal. rewrite half_R, BB, coupon_dividend. field. }
  pose proof (E_two S ((r - coupon d - nhalf * npos V) * dt) b rho Rho) as H.
  destruct H as (h & H & L). exists h. split; [|exact L]. intros z1 Z1. destruct (H z1 Z1) as (h2 & H2 & L2).
  exists h2. split; [|exact L2]. intros z2 Z2. specialize (H2 z2 Z2). exact H2.
Qed.

Definition jump_factor (lambda m : R) : R := exp (lambda * (m - 1) * dt).

Lemma merton_growth : forall lambda muJ sigmaJ S,
  is_E (merton_step d r t n lambda muJ sigmaJ S) (fun x => x)
    (exp ((r - dividend d) * dt) * jump_factor lambda (exp (muJ + sigmaJ * sigmaJ / 2)) * S).
Proof.
  intros lambda muJ sigmaJ S. unfold merton_step. fold dt. set (x := exp (muJ + sigmaJ * sigmaJ / 2)).
  set (A := (r - coupon d - nhalf * getSigma d * getSigma d) * dt). set (b := getSigma d * sqrt dt).
  assert (BB : b * b = getSigma d * getSigma d * dt) by (unfold b; pose proof (sqrt_sqrt dt dt0); nra).
  apply (E_bind _ _ _ (fun z => (S * exp (lambda * dt * (x - 1))) * exp (A + b * z))).
  - replace (exp ((r - dividend d) * dt) * jump_factor lambda x * S) with (S * exp (lambda * dt * (x - 1)) * exp (A + b * b / 2)).
    { apply E_normal. }
    unfold jump_factor. replace (A + b * b / 2) with ((r - dividend d) * dt) by (unfold A; rewrite BB, half_R, coupon_dividend; field).
    replace (lambda * dt * (x - 1)) with (lambda * (x - 1) * dt) by ring. ring.
  - intros z. replace (S * exp (lambda * dt * (x - 1)) * exp (A + b * z)) with (S * exp (A + b * z) * exp (lambda * dt * (x - 1))) by ring.
    apply E_count. intros k. rewrite Nat2Z.id. apply E_map.
    pose proof (E_piter (fun js => S * exp (A + b * z + js)) (fun js => pbind (pdraw (SNormal muJ sigmaJ)) (fun j => Done (Ok (js + j)))) x) as H.
    assert (K : forall y, is_E (pbind (pdraw (SNormal muJ sigmaJ)) (fun j => Done (Ok (y + j)))) (fun js => S * exp (A + b * z + js)) (x * (S * exp (A + b * z + y)))).
    { intros y. apply E_map. rewrite (Rmult_comm x). eapply E_ext; [|apply E_jump]. intros j. cbn. rewrite Rmult_assoc, <- exp_plus. f_equal. f_equal. ring. }
    specialize (H K k 0). cbv beta in H. rewrite Rplus_0_r in H. rewrite (Rmult_comm (x ^ k)) in H. exact H.
Qed.

Lemma bates_growth : forall lambda muJ sigmaJ kappa theta sigma_v rho disc x, -1 <= rho <= 1 ->
  is_E (bates_step d r t n lambda muJ sigmaJ kappa theta sigma_v rho disc x) fst
    (exp ((r - dividend d) * dt) * jump_factor lambda (exp (muJ + sigmaJ * sigmaJ / 2)) * fst x).
Proof.
  intros lambda muJ sigmaJ kappa theta sigma_v rho disc [S V] Rho. unfold bates_step. fold dt. cbn [fst snd].
  set (x := exp (muJ + sigmaJ * sigmaJ / 2)). set (A := (r - coupon d - nhalf * npos V) * dt).
  set (b := sqrt (npos V * dt)). assert (BB : b * b = npos V * dt).
  { apply sqrt_sqrt. rewrite npos_R. apply Rmult_le_pos; [apply Rmax_r|easy]. }
  set (J := jump_factor lambda x).
  replace (exp ((r - dividend d) * dt) * J * S) with (S * J * exp (A + b * b / 2)).
  2:{ replace (A + b * b / 2) with ((r - dividend d) * dt) by (unfold A; rewrite half_R, BB, coupon_dividend; field). ring. }
  pose proof (E_two (S * J) A b rho Rho) as H.
  destruct H as (h & H & L). exists h. split; [|exact L]. intros z1 Z1. destruct (H z1 Z1) as (h2 & H2 & L2).
  exists h2. split; [|exact L2]. intros z2 Z2. specialize (H2 z2 Z2). cbn in H2. cbn [pbind].
  rewrite <- H2. set (P := S * exp (A + b * (rho * z1 + sqrt (1 - rho * rho) * z2))).
  replace (S * J * exp (A + b * (rho * z1 + sqrt (1 - rho * rho) * z2))) with (P * exp (lambda * dt * (x - 1)))
    by (unfold P, J, jump_factor; replace (lambda * dt * (x - 1)) with (lambda * (x - 1) * dt) by ring; ring).
  apply (@E_count (R * R)). intros k. rewrite Nat2Z.id. apply E_map. cbn [fst].
  rewrite (Rmult_comm P). apply (E_piter (fun y => y)). intros y. apply E_map. rewrite Rmult_comm. apply E_jump.
Qed.

Definition kou_factor (p eta1 eta2 : R) : R := (p * (eta1 / (eta1 - 1)) + (1 - p)) * (eta2 / (eta2 + 1)).

Lemma E_up : forall C eta, 1 < eta -> is_E (pdraw (SExponential eta)) (fun u => C * exp u) (C * (eta / (eta - 1))).
Proof.
  intros C eta H. apply E_draw. cbn. pose proof (integral_pos_exp (C * eta) (eta - 1) ltac:(lra)) as I.
  replace (C * (eta / (eta - 1))) with (C * eta / (eta - 1)) by (field; lra).
  eapply integral_pos_ext; [|exact I]. intros x _. cbn. replace (- ((eta - 1) * x)) with (x + - (eta * x)) by ring. rewrite exp_plus. ring.
Qed.
Lemma E_down : forall C eta, 0 < eta -> is_E (pdraw (SExponential eta)) (fun e => C * exp (- e)) (C * (eta / (eta + 1))).
Proof.
  intros C eta H. apply E_draw. cbn. pose proof (integral_pos_exp (C * eta) (eta + 1) ltac:(lra)) as I.
  replace (C * (eta / (eta + 1))) with (C * eta / (eta + 1)) by (field; lra).
  eapply integral_pos_ext; [|exact I]. intros x _. cbn. replace (- ((eta + 1) * x)) with (- x + - (eta * x)) by ring. rewrite exp_plus. ring.
Qed.
Lemma E_uniform : forall p a b, 0 <= p <= 1 -> is_E (pdraw (SUniform 0 1)) (fun U => if nltb U p then a else b) (p * a + (1 - p) * b).
Proof.
  intros p a b P. apply E_draw. cbn. split; [lra|].
  replace ((p * a + (1 - p) * b) * (1 - 0)) with (plus (scal (p - 0) a) (scal (1 - p) b)) by (unfold plus, scal; cbn; unfold mult; cbn; ring).
  apply (@is_RInt_Chasles R_NormedModule) with p.
  - eapply is_RInt_ext; [|apply (@is_RInt_const R_NormedModule)]. intros x X. rewrite Rmin_left, Rmax_right in X by lra. cbn. now rewrite Rlt_bool_true by lra.
  - eapply is_RInt_ext; [|apply (@is_RInt_const R_NormedModule)]. intros x X. rewrite Rmin_left, Rmax_right in X by lra. cbn. now rewrite Rlt_bool_false by lra.
Qed.

Lemma E_kou_jump : forall p eta1 eta2 C js, 0 <= p <= 1 -> 1 < eta1 -> 0 < eta2 ->
  is_E (kou_jump_sampler p eta1 eta2 js) (fun y => C * exp y) (kou_factor p eta1 eta2 * (C * exp js)).
Proof.
  intros p eta1 eta2 C js P E1 E2. unfold kou_jump_sampler. set (q := eta2 / (eta2 + 1)).
  apply (E_bind _ _ _ (fun U => if nltb U p then C * exp js * q * (eta1 / (eta1 - 1)) else C * exp js * q)).
  - replace (kou_factor p eta1 eta2 * (C * exp js)) with (p * (C * exp js * q * (eta1 / (eta1 - 1))) + (1 - p) * (C * exp js * q)) by (unfold kou_factor; fold q; ring).
    now apply E_uniform.
  - intros U. apply (E_bind _ _ _ (fun y => C * exp y * q)).
    + destruct (nltb U p).
      * apply E_map. eapply E_ext; [|apply E_up; easy]. intros u. cbn. rewrite exp_plus. ring.
      * reflexivity.
    + intros y. apply E_map. eapply E_ext; [|apply E_down; easy]. intros e. cbn. rewrite exp_plus. ring.
Qed.

Lemma kou_growth : forall lambda p eta1 eta2 muJ S, 0 <= p <= 1 -> 1 < eta1 -> 0 < eta2 ->
  is_E (kou_step d r t n lambda p eta1 eta2 muJ S) (fun x => x)
    (exp ((r - dividend d) * dt) * exp (lambda * (kou_factor p eta1 eta2 - muJ) * dt) * S).
Proof.
  intros lambda p eta1 eta2 muJ S P E1 E2. unfold kou_step. fold dt. set (x := kou_factor p eta1 eta2).
  set (A := (r - coupon d - nhalf * getSigma d * getSigma d - lambda * (muJ - 1)) * dt). set (b := getSigma d * sqrt dt).
  assert (BB : b * b = getSigma d * getSigma d * dt) by (unfold b; pose proof (sqrt_sqrt dt dt0); nra).
  apply (E_bind _ _ _ (fun z => (S * exp (lambda * dt * (x - 1))) * exp (A + b * z))).
  - replace (exp ((r - dividend d) * dt) * exp (lambda * (x - muJ) * dt) * S) with (S * exp (lambda * dt * (x - 1)) * exp (A + b * b / 2)).
    { apply E_normal. }
    replace (A + b * b / 2) with ((r - dividend d) * dt - lambda * (muJ - 1) * dt) by (unfold A; rewrite BB, half_R, coupon_dividend; field).
    rewrite Rmult_assoc, <- exp_plus, Rmult_comm, <- exp_plus. f_equal. f_equal. ring.
  - intros z. replace (S * exp (lambda * dt * (x - 1)) * exp (A + b * z)) with (S * exp (A + b * z) * exp (lambda * dt * (x - 1))) by ring.
    apply E_count. intros k. rewrite Nat2Z.id. apply E_map.
    pose proof (E_piter (fun js => S * exp (A + b * z) * exp js) (kou_jump_sampler p eta1 eta2) x
      (fun y => E_kou_jump p eta1 eta2 (S * exp (A + b * z)) y P E1 E2) k 0) as H.
    cbv beta in H. rewrite exp_0, Rmult_1_r, (Rmult_comm (x ^ k)) in H. eapply E_ext; [|exact H]. intros y. cbn. rewrite (exp_plus _ y). ring.
Qed.

Lemma vg_growth : forall nu theta omega S, 0 < dt -> 0 < nu -> theta + getSigma d * getSigma d / 2 < nu ->
  is_E (vg_step d r t n nu theta omega S) (fun x => x)
    (exp ((r - dividend d + omega) * dt) * Rpower (1 - (theta + getSigma d * getSigma d / 2) * (1 / nu)) (- (dt / nu)) * S).
Proof.
  intros nu theta omega S D0 N B. unfold vg_step. fold dt. set (s := getSigma d) in *. set (b := theta + s * s / 2) in *.
  set (A := (r - coupon d + omega) * dt).
  assert (Q : b * (1 / nu) < 1) by (apply (Rmult_lt_reg_r nu); [easy|]; replace (b * (1 / nu) * nu) with b by (field; lra); lra).
  assert (H : is_law (SGamma (dt / nu) (1 / nu)) (fun g => S * exp A * exp (b * g)) (S * exp A * Rpower (1 - b * (1 / nu)) (- (dt / nu)))).
  { apply gamma_exp; [now apply Rdiv_lt_0_compat|apply Rdiv_lt_0_compat; lra|exact Q]. }
  replace (exp ((r - dividend d + omega) * dt) * Rpower (1 - b * (1 / nu)) (- (dt / nu)) * S)
    with (S * exp A * Rpower (1 - b * (1 / nu)) (- (dt / nu))) by (unfold A; rewrite coupon_dividend; ring).
  exists (fun g => S * exp A * exp (b * g)). split; [|exact H]. intros g G. cbn in G.
  assert (G2 : sqrt g * sqrt g = g) by (apply sqrt_sqrt; lra). cbn [pbind].
  apply (E_map (pdraw (SNormal 0 1)) (fun z => S * exp (A + (theta * g + s * sqrt g * z))) (fun x => x)).
  replace (S * exp A * exp (b * g)) with (S * exp ((A + theta * g) + s * sqrt g * (s * sqrt g) / 2)).
  - eapply E_ext; [|apply E_normal]. intros z. cbn. f_equal. f_equal. ring.
  - rewrite (Rmult_assoc S (exp A)), <- (exp_plus A). f_equal. f_equal. unfold b.
    replace (s * sqrt g * (s * sqrt g)) with (s * s * (sqrt g * sqrt g)) by ring. rewrite G2. field.
Qed.
End Step.

(** ** Along a path *)
Lemma E_assoc : forall {A B C} (p : sampler A) (k : A -> sampler B) (l : B -> sampler C) f m,
  is_E (pbind p (fun a => pbind (k a) l)) f m <-> is_E (pbind (pbind p k) l) f m.
Proof.
  intros A B C p k l f. induction p as [[a|e|]|s p IH|s p IH|s p IH]; intros m; cbn; try easy.
  - split; intros (h & K & L); exists h; (split; [|easy]); intros y Y; apply IH; now apply K.
  - split; intros (h & K & L); exists h; (split; [|easy]); intros y; apply IH; apply K.
Qed.

Section Path.
Context {X : Type} (price : X -> R) (step : X -> sampler X).
Hypothesis mass : forall x, is_E (step x) (fun _ => 1) 1.

(** Prices already recorded stay. *)
Lemma path_past : forall n x l j, (j < length l)%nat ->
  is_E (piter n (record price step) (x, l)) (fun st => nth j (snd st) 0) (nth j l 0).
Proof.
  intros n. induction n as [|n IH]; intros x l j J; cbn [piter]; [reflexivity|].
  unfold record at 1. cbn [fst snd]. apply E_assoc. cbn [pbind].
  apply (E_bind _ _ _ (fun _ => nth j l 0)); [now apply E_const|].
  intros y. rewrite <- (app_nth1 l [price y] 0 J). apply IH. rewrite app_length. lia.
Qed.

Lemma path_mean : forall q, (forall x, is_E (step x) price (q * price x)) ->
  forall n x l i, (i < n)%nat ->
  is_E (piter n (record price step) (x, l)) (fun st => nth (length l + i) (snd st) 0) (q ^ S i * price x).
Proof.
  intros q H n. induction n as [|n IH]; intros x l i I; [lia|]. cbn [piter].
  unfold record at 1. cbn [fst snd]. apply E_assoc. cbn [pbind].
  destruct i as [|i].
  - apply (E_bind _ _ _ price).
    + replace (q ^ 1 * price x) with (q * price x) by ring. apply H.
    + intros y. rewrite Nat.add_0_r. replace (price y) with (nth (length l) (l ++ [price y]) 0) at 2.
      * apply path_past. rewrite app_length. cbn. lia.
      * rewrite app_nth2 by lia. now rewrite Nat.sub_diag.
  - apply (E_bind _ _ _ (fun y => q ^ S i * price y)).
    + replace (q ^ S (S i) * price x) with (q ^ S i * (q * price x)) by (cbn; ring). now apply E_scal.
    + intros y. replace (length l + S i)%nat with (length (l ++ [price y]) + i)%nat by (rewrite app_length; cbn; lia).
      apply IH. lia.
Qed.
End Path.

(** ** Each model *)
Section Kinds.
Variables (d : StockData R) (r t : R) (n : Z).
Let dt := t / IZR n.

(** Values for which every draw is possible and the price has a mean. *)
Definition drawable (k : ModelKind R) : Prop :=
  match k with
  | MGBM => True
  | MHeston _ _ _ rho _ _ => -1 <= rho <= 1
  | MBates _ _ _ rho _ lambda _ sigmaJ _ => -1 <= rho <= 1 /\ 0 < lambda * dt /\ 0 < sigmaJ
  | MKou lambda p eta1 eta2 _ => 0 <= p <= 1 /\ 0 < lambda * dt /\ 1 < eta1 /\ 0 < eta2
  | MMerton lambda _ sigmaJ => 0 < lambda * dt /\ 0 < sigmaJ
  | MVarianceGamma nu theta _ => 0 < dt /\ 0 < nu /\ theta + getSigma d * getSigma d / 2 < nu
  end.
(** The growth rate of the mean beyond r - c. *)
Definition drift_error (k : ModelKind R) : R :=
  match k with
  | MGBM | MHeston _ _ _ _ _ _ => 0
  | MBates _ _ _ _ _ lambda muJ sigmaJ _ | MMerton lambda muJ sigmaJ => lambda * (exp (muJ + sigmaJ * sigmaJ / 2) - 1)
  | MKou lambda p eta1 eta2 muJ => lambda * (kou_factor p eta1 eta2 - muJ)
  | MVarianceGamma nu theta omega => omega - / nu * ln (1 - (theta + getSigma d * getSigma d / 2) * (1 / nu))
  end.

Lemma ctor_std : Distr_ctor (@DStdNormal R) = Ok DStdNormal.
Proof. cbn [Distr_ctor]. unfold nleb, n0, n1; cbn. rewrite Rle_bool_false by lra. reflexivity. Qed.
Lemma ctor_gt : forall x : R, 0 < x -> (@nleb R Rnum x n0) = false.
Proof. intros x H. unfold n0; cbn. now rewrite Rle_bool_false by lra. Qed.

Lemma E_new : forall {A} D (k : Distr R -> sampler A) f m, Distr_ctor D = Ok D -> is_E (k D) f m -> is_E (pbind (pnew D) k) f m.
Proof. intros A D k f m H K. unfold pnew. rewrite H. exact K. Qed.

Lemma wf_iter : forall {X} (body : X -> sampler X), (forall x, wf (body x)) -> forall m x, wf (piter m body x).
Proof. intros X body H m. induction m as [|m IH]; intros x; cbn [piter]; [easy|]. now apply wf_bind. Qed.

Lemma E_path : forall {X} (price : X -> R) (step : X -> sampler X) q x i,
  (n <= INT_MAX)%Z -> (i < Z.to_nat n)%nat -> (forall x, wf (step x)) -> (forall x, is_E (step x) price (q * price x)) ->
  is_E (pbind (pfor_int n (record price step) (x, [])) (fun st => Done (Ok (snd st)))) (fun path => nth i path 0) (q ^ S i * price x).
Proof.
  intros X price step q x i N I W G. apply (E_map _ snd). unfold pfor_int. destruct (Z.leb_spec n INT_MAX) as [_|]; [|lia].
  refine (path_mean price step _ q G (Z.to_nat n) x [] i I). intros y. eapply E_one; [apply W|apply G].
Qed.

Lemma wf_normal : forall {A} mu s (k : R -> sampler A), (forall x, wf (k x)) -> wf (pbind (pdraw (SNormal mu s)) k).
Proof. intros A mu s k H. apply wf_bind; [cbn; easy|easy]. Qed.

Lemma kind_mean : forall k i, 0 <= dt -> (n <= INT_MAX)%Z -> (i < Z.to_nat n)%nat -> drawable k ->
  is_E (kind_sampler d r t n k) (fun path => nth i path 0)
    (getPrice d * exp ((r - dividend d + drift_error k) * (INR (S i) * dt))).
Proof.
  intros k i T N I H.
  assert (Pw : forall a, exp (a * dt) ^ S i = exp (a * (INR (S i) * dt))).
  { intros a. replace (a * (INR (S i) * dt)) with (INR (S i) * (a * dt)) by ring. generalize (S i). intros j.
    induction j as [|j IH]; [cbn; now rewrite Rmult_0_l, exp_0|]. rewrite <- tech_pow_Rmult, IH, S_INR, <- exp_plus. f_equal. ring. }
  rewrite <- Pw. rewrite (Rmult_comm (getPrice d)).
  destruct k as [|kappa theta sigma_v rho v0 disc|kappa theta sigma_v rho v0 lambda muJ sigmaJ disc|lambda p eta1 eta2 muJ|lambda muJ sigmaJ|nu theta omega];
    cbn [kind_sampler drift_error drawable] in *.
  - unfold gbm_sampler. apply E_new; [apply ctor_std|]. apply (E_path (fun S => S)); [easy|easy| |].
    + intros x. unfold gbm_step. apply wf_normal. easy.
    + intros x. rewrite Rplus_0_r. now apply gbm_growth.
  - unfold heston_sampler. apply E_new; [apply ctor_std|]. apply (E_path fst) with (x := (getPrice d, v0)); [easy|easy| |].
    + intros x. unfold heston_step. apply wf_normal. intros z. apply wf_normal. easy.
    + intros x. rewrite Rplus_0_r. now apply heston_growth.
  - destruct H as (Rho & L & SJ). unfold bates_sampler. apply E_new; [apply ctor_std|].
    apply E_new; [cbn [Distr_ctor]; now rewrite ctor_gt by exact L|]. apply E_new; [cbn [Distr_ctor]; now rewrite (ctor_gt _ SJ)|].
    apply (E_path fst) with (x := (getPrice d, v0)); [easy|easy| |].
    + intros x. unfold bates_step. apply wf_normal. intros z. apply wf_normal. intros z2. apply wf_bind; [cbn; split; [left; exact L|easy]|].
      intros c. apply wf_bind; [|easy]. apply wf_iter. intros y. apply wf_normal. easy.
    + intros x. rewrite Rmult_plus_distr_r, exp_plus. now apply bates_growth.
  - destruct H as (P & L & E1 & E2). unfold kou_sampler. apply E_new; [apply ctor_std|].
    apply E_new; [cbn [Distr_ctor]; now rewrite ctor_gt by exact L|].
    apply E_new; [cbn [Distr_ctor]; unfold nleb, n0, n1; cbn; now rewrite Rle_bool_false by lra|].
    apply E_new; [cbn [Distr_ctor]; now rewrite ctor_gt by lra|]. apply E_new; [cbn [Distr_ctor]; now rewrite ctor_gt by lra|].
    apply (E_path (fun S => S)); [easy|easy| |].
    + intros x. unfold kou_step. apply wf_normal. intros z. apply wf_bind; [cbn; split; [left; exact L|easy]|].
      intros c. apply wf_bind; [|easy]. apply wf_iter. intros y. unfold kou_jump_sampler.
      apply wf_bind; [cbn; split; [lra|easy]|]. intros U. apply wf_bind.
      * destruct (nltb U p); [|easy]. apply wf_bind; [|easy]. cbn. split; [lra|easy].
      * intros u. apply wf_bind; [|easy]. cbn. split; [lra|easy].
    + intros x. rewrite Rmult_plus_distr_r, exp_plus. now apply kou_growth.
  - destruct H as (L & SJ). unfold merton_sampler. apply E_new; [apply ctor_std|].
    apply E_new; [cbn [Distr_ctor]; now rewrite ctor_gt by exact L|]. apply E_new; [cbn [Distr_ctor]; now rewrite (ctor_gt _ SJ)|].
    apply (E_path (fun S => S)); [easy|easy| |].
    + intros x. unfold merton_step. apply wf_normal. intros z. apply wf_bind; [cbn; split; [left; exact L|easy]|].
      intros c. apply wf_bind; [|easy]. apply wf_iter. intros y. apply wf_normal. easy.
    + intros x. rewrite Rmult_plus_distr_r, exp_plus. now apply merton_growth.
  - destruct H as (D0 & Nu & B). unfold vg_sampler. apply E_new; [apply ctor_std|].
    apply E_new; [cbn [Distr_ctor]; rewrite !ctor_gt by (try apply Rdiv_lt_0_compat; assumption); reflexivity|].
    apply (E_path (fun S => S)); [easy|easy| |].
    + intros x. unfold vg_step. apply wf_bind; [|intros g; apply wf_normal; easy].
      cbn. repeat split; try easy; apply Rdiv_lt_0_compat; lra.
    + intros x. pose proof (vg_growth d r t n nu theta omega x D0 Nu B) as G. fold dt in G.
      replace (exp ((r - dividend d + (omega - / nu * ln (1 - (theta + getSigma d * getSigma d / 2) * (1 / nu)))) * dt) * x)
        with (exp ((r - dividend d + omega) * dt) * Rpower (1 - (theta + getSigma d * getSigma d / 2) * (1 / nu)) (- (dt / nu)) * x); [exact G|].
      unfold Rpower. rewrite <- exp_plus. f_equal. f_equal. unfold Rdiv. field. lra.
Qed.
End Kinds.
