(** The terminal price of a Merton path: a Poisson mixture of lognormal laws. *)
From Coq Require Import String List ZArith Reals Bool Lra Lia.
From Coquelicot Require Import Coquelicot.
From Verif Require Import M_Num M_Outcome M_Stock M_Market M_Payoff M_Option M_Random M_Model
  S_Market S_Model S_Prob S_Option S_MonteCarlo S_Expect S_Normal L_Gauss L_Martingale L_Expect L_Sampler L_Growth L_Normal L_Lognormal L_Mixture.
Import ListNotations.
Local Open Scope R_scope.

(** ** Payoffs *)
Definition pay_value (pay : Payoff R) (m s2 : R) : R :=
  if Req_EM_T s2 0 then terminal pay (exp m) else lognormal_payoff pay (exp (m + s2 / 2)) (sqrt s2).

Lemma Enormal_std : forall f m, is_Enormal (fun z => f (0 + 1 * z)) m <-> is_Enormal f m.
Proof. intros f m. split; apply is_Enormal_ext; intros z; f_equal; ring. Qed.
Lemma E_std : forall f m, is_E (pdraw (SNormal 0 1)) f m <-> is_Enormal f m.
Proof.
  intros f m. split.
  - intros (h & H & L). apply (proj1 (Enormal_std h m)) in L. eapply is_Enormal_ext; [|exact L]. intros z. symmetry. exact (H z I).
  - intros H. exists f. split; [easy|]. exact (proj2 (Enormal_std f m) H).
Qed.

(** One normal increment on a lognormal law. *)
Lemma pay_one : forall pay m s, positive_strikes pay -> 0 < s ->
  is_Enormal (fun z => terminal pay (exp (m + s * z))) (lognormal_payoff pay (exp (m + s * s / 2)) (sqrt (s * s))).
Proof.
  intros pay m s P S. apply E_std.
  apply (payoff_mean (pdraw (SNormal 0 1)) (fun z => m + s * z) m (s * s)); [nra| |exact P].
  intros W A. apply E_std. pose proof (A m 0 s ltac:(lra) S) as E. now rewrite Rplus_0_l in E.
Qed.

Lemma pay_absorbs : forall pay, positive_strikes pay -> absorbs (pay_value pay).
Proof.
  intros pay P m s2 c S C. unfold pay_value. destruct (Req_EM_T (s2 + c * c) 0) as [Z|_]; [nra|].
  destruct (Req_EM_T s2 0) as [->|N]; [rewrite Rplus_0_l; now apply pay_one|].
  assert (S0 : 0 < sqrt s2) by (apply sqrt_lt_R0; lra). assert (SS : sqrt s2 * sqrt s2 = s2) by (now apply sqrt_sqrt).
  set (q := pbind (pdraw (SNormal 0 1)) (fun z1 => pbind (pdraw (SNormal 0 1)) (fun z2 => Done (Ok (m + c * z1 + sqrt s2 * z2))))).
  assert (E : is_E q (fun y => terminal pay (exp y)) (lognormal_payoff pay (exp (m + (s2 + c * c) / 2)) (sqrt (s2 + c * c)))).
  { apply (payoff_mean q (fun y => y) m (s2 + c * c)); [nra| |exact P]. intros W A.
    apply (E_bind _ _ _ (fun z1 => W (m + c * z1) s2)); [apply E_std; now apply A|].
    intros z1. apply E_map. apply E_std. pose proof (A (m + c * z1) 0 (sqrt s2) ltac:(lra) S0) as E. now rewrite Rplus_0_l, SS in E. }
  destruct E as (h & H & L). apply (proj1 (Enormal_std h _)) in L. eapply is_Enormal_ext; [|exact L]. intros z1. cbn beta.
  specialize (H z1 I). cbn [pbind] in H. apply (E_unique _ _ _ _ H).
  apply (E_map (pdraw (SNormal 0 1)) (fun z2 => m + c * z1 + sqrt s2 * z2)). apply E_std.
  pose proof (pay_one pay (m + c * z1) (sqrt s2) P S0) as E. now rewrite SS in E.
Qed.

Definition pay_bound (pay : Payoff R) : R := match pay with PVanilla _ K => K | _ => 1 end.
Lemma terminal_bound : forall pay x, positive_strikes pay -> 0 < x -> 0 <= terminal pay x <= x + pay_bound pay.
Proof.
  intros pay x P X. destruct pay as [ty K|ty K|KL KU|ty]; cbn in P; [| | |easy].
  - cbn. unfold vanilla. split; [destruct ty; apply Rmax_r|]. destruct ty; apply Rmax_lub; lra.
  - cbn. destruct ty; destruct (Rlt_dec _ _); lra.
  - cbn. destruct (Rle_dec _ _); [destruct (Rle_dec _ _)|]; lra.
Qed.
Lemma pay_tame : forall pay, positive_strikes pay -> tame (pay_value pay).
Proof.
  intros pay P. exists 1, (pay_bound pay). split; [lra|]. split; [destruct pay; cbn in *; lra|].
  intros m s2 S. unfold pay_value. destruct (Req_EM_T s2 0) as [->|N].
  - pose proof (terminal_bound pay (exp m) P (exp_pos m)). replace (m + 0 / 2) with m by field. lra.
  - assert (S0 : 0 < sqrt s2) by (apply sqrt_lt_R0; lra). assert (SS : sqrt s2 * sqrt s2 = s2) by (now apply sqrt_sqrt).
    pose proof (pay_one pay m (sqrt s2) P S0) as E. rewrite SS in E. split.
    + apply (Enormal_mono (fun _ => 0) (fun z => terminal pay (exp (m + sqrt s2 * z)))); [|apply Enormal_const|exact E].
      intros z. apply terminal_bound; [exact P|apply exp_pos].
    + pose proof (Enormal_lin _ _ _ _ 1 1 (Enormal_exp 1 m (sqrt s2)) (Enormal_const (pay_bound pay))) as U. rewrite SS in U.
      replace (1 * exp (m + s2 / 2) + pay_bound pay) with (1 * (1 * exp (m + s2 / 2)) + 1 * pay_bound pay) by ring.
      refine (Enormal_mono _ _ _ _ _ E U). intros z. cbn. pose proof (terminal_bound pay (exp (m + sqrt s2 * z)) P (exp_pos _)). lra.
Qed.

(** ** Paths *)
Section Merton.
Variables (d : StockData R) (r t : R) (n : Z) (lambda muJ sigmaJ : R).
Let dt := t / IZR n.
Let a := (r - dividend d - getSigma d * getSigma d / 2) * dt.
Let b := getSigma d * sqrt dt.
Let body := record (fun S : R => S) (merton_step d r t n lambda muJ sigmaJ).
Hypothesis sigma0 : 0 < getSigma d.
Hypothesis dt0 : 0 < dt.
Hypothesis l0 : 0 <= lambda * dt.
Hypothesis sJ0 : 0 < sigmaJ.

Lemma mix_zero : forall W m s2, tame W -> 0 <= s2 -> mix muJ sigmaJ 0 W m s2 = W m s2.
Proof.
  intros W m s2 T S. apply (is_Epoisson_unique 0 (jumped muJ sigmaJ W m s2)); [now apply mix_ok; try lra|].
  assert (E : jumped muJ sigmaJ W m s2 0 = W m s2) by (unfold jumped; cbn; f_equal; ring).
  apply series_iff. intros eps Ep. exists 0%nat. intros k _.
  replace (sum_f_R0 (fun n0 => exp (- 0) * (0 ^ n0 / INR (fact n0)) * jumped muJ sigmaJ W m s2 n0) k) with (W m s2); [rewrite Rminus_diag_eq, Rabs_R0 by easy; easy|].
  induction k as [|k IH].
  - cbn [sum_f_R0]. rewrite E. cbn. rewrite Ropp_0, exp_0. field.
  - cbn [sum_f_R0]. rewrite <- IH, pow_i by lia. unfold Rdiv. ring.
Qed.

Lemma merton_end : forall pay, positive_strikes pay -> forall k S l, 0 < S -> (k = 0%nat -> last l 0 = S) ->
  is_E (piter k body (S, l)) (fun st => terminal pay (last (snd st) 0))
    (mix muJ sigmaJ (INR k * (lambda * dt)) (pay_value pay) (ln S + INR k * a) (INR k * (b * b))).
Proof.
  intros pay P. assert (T : tame (pay_value pay)) by now apply pay_tame. assert (AB : absorbs (pay_value pay)) by now apply pay_absorbs.
  assert (B0 : 0 < b) by (apply Rmult_lt_0_compat; [easy|now apply sqrt_lt_R0]).
  induction k as [|k IH]; intros S l S0 LA.
  - cbn [piter is_E snd INR]. rewrite LA by easy. rewrite !Rmult_0_l, Rplus_0_r, mix_zero by (easy || lra).
    unfold pay_value. destruct (Req_EM_T 0 0); [|easy]. now rewrite exp_ln.
  - set (V := mix muJ sigmaJ (INR k * (lambda * dt)) (pay_value pay)).
    assert (KL : 0 <= INR k * (lambda * dt)) by (apply Rmult_le_pos; [apply pos_INR|easy]).
    assert (KB : 0 <= INR k * (b * b)) by (apply Rmult_le_pos; [apply pos_INR|nra]).
    assert (VT : tame V) by now apply mix_tame. assert (VA : absorbs V) by now apply mix_absorbs.
    cbn [piter]. unfold body at 1. unfold record, merton_step. fold dt. apply E_assoc. apply E_assoc. cbn [pbind pdraw].
    set (m1 := ln S + INR (Datatypes.S k) * a).
    exists (fun z => mix muJ sigmaJ (lambda * dt) V (m1 + b * z) (INR k * (b * b))). split.
    + intros z _. apply E_assoc. cbn [pbind pcount].
      exists (jumped muJ sigmaJ V (m1 + b * z) (INR k * (b * b))). split.
      * intros i. rewrite Nat2Z.id. apply E_assoc. cbn [pbind].
        apply (E_bind _ _ _ (fun js => V (m1 + b * z + js) (INR k * (b * b)))).
        -- pose proof (jumps_absorb muJ sigmaJ sJ0 V VA i (m1 + b * z) 0 (INR k * (b * b)) KB) as E. rewrite Rplus_0_r in E. exact E.
        -- intros js. cbn [pbind snd].
           set (S' := S * exp ((r - coupon d - nhalf * getSigma d * getSigma d) * dt + getSigma d * sqrt dt * z + js)).
           assert (S1 : 0 < S') by (apply Rmult_lt_0_compat; [easy|apply exp_pos]).
           pose proof (IH S' (l ++ [S']) S1) as E.
           replace (m1 + b * z + js) with (ln S' + INR k * a).
           ++ apply E. intros _. apply last_last.
           ++ unfold S'. rewrite ln_mult, ln_exp by (easy || apply exp_pos). unfold m1, a, b. rewrite S_INR, half_R, coupon_dividend. field.
      * now apply mix_ok.
    + pose proof (mix_absorbs muJ sigmaJ (lambda * dt) V l0 VT VA m1 (INR k * (b * b)) b KB B0) as E.
      change (is_Enormal (fun z => (fun z => mix muJ sigmaJ (lambda * dt) V (m1 + b * z) (INR k * (b * b))) (0 + 1 * z))
        (mix muJ sigmaJ (INR (Datatypes.S k) * (lambda * dt)) (pay_value pay) m1 (INR (Datatypes.S k) * (b * b)))).
      apply (proj2 (Enormal_std (fun z => mix muJ sigmaJ (lambda * dt) V (m1 + b * z) (INR k * (b * b))) _)).
      replace (mix muJ sigmaJ (INR (Datatypes.S k) * (lambda * dt)) (pay_value pay) m1 (INR (Datatypes.S k) * (b * b)))
        with (mix muJ sigmaJ (lambda * dt) V m1 (INR k * (b * b) + b * b)); [exact E|].
      unfold V. rewrite mix_mix by (easy || nra). rewrite S_INR. f_equal; ring.
Qed.
End Merton.
