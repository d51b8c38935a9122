(** C124: the quantile function used on quasi-random numbers against the normal distribution function. *)
From Coq Require Import List ZArith Reals Lra Lia Bool.
From Flocq Require Import Core.
From Coquelicot Require Import Coquelicot.
From Verif Require Import M_Num M_Outcome M_Random S_Prob S_Normal L_Normal L_InvCdf L_Accuracy L_AccTail P_Random.
Local Open Scope R_scope.

(** The reference is the distribution function [Phi] of S_Normal, an integral of the Gaussian
    density; nothing of it is shared with the rational and Chebyshev approximations of the code. *)

Lemma half_acc : forall q, 0 < q <= 1/2 -> Rabs (Phi (half_inv q) - q) <= 48/100000000000.
Proof.
  intros q Q. unfold half_inv. destruct (Rlt_bool_spec (Rabs (q - 1/2)) (42/100)) as [L|L].
  - apply Rabs_def2 in L. pose proof (centre (1/2 - q) ltac:(lra)) as C.
    replace (q - 1/2) with (- (1/2 - q)) by ring. rewrite cen_opp, Phi_opp. apply Rabs_le_between in C. apply Rabs_le_between. lra.
  - rewrite Rabs_left1 in L by lra. pose proof (lower_tail q ltac:(lra)) as T. unfold kappa, tiny in T. apply Rabs_le_between in T. apply Rabs_le_between. lra.
Qed.

Theorem C124_accuracy : forall u, 0 < u < 1 ->
  exists x, snd_inv_cdf u = Ok x /\ Rabs (Phi x - u) <= 5/10000000000.
Proof.
  intros u U. rewrite (inv_cdf_R u U). eexists. split; [reflexivity|].
  destruct (Rlt_bool_spec (1/2) u) as [L|L].
  - pose proof (half_acc (1 - u) ltac:(lra)) as A. rewrite Phi_opp. apply Rabs_le_between in A. apply Rabs_le_between. lra.
  - pose proof (half_acc u ltac:(lra)) as A. apply Rabs_le_between in A. apply Rabs_le_between. lra.
Qed.
Print Assumptions C124_accuracy.

(** In the tails the error is proportional to the probability, down to 2e-12. *)
Theorem C124_tails : forall q, 0 < q <= 8/100 ->
  (exists x, snd_inv_cdf q = Ok x /\ Rabs (Phi x - q) <= 2/1000000000 * q + 2/1000000000000) /\
  (exists x, snd_inv_cdf (1 - q) = Ok x /\ Rabs (1 - Phi x - q) <= 2/1000000000 * q + 2/1000000000000).
Proof.
  intros q Q. pose proof (lower_tail q Q) as T. unfold kappa, tiny in T.
  assert (H : half_inv q = - tl (ln (- ln q))).
  { unfold half_inv. rewrite Rlt_bool_false; [easy|]. rewrite Rabs_left1; lra. }
  split; rewrite inv_cdf_R by lra; eexists; (split; [reflexivity|]).
  - rewrite Rlt_bool_false by lra. rewrite H. lra.
  - rewrite Rlt_bool_true by lra. replace (1 - (1 - q)) with q by ring. rewrite <- Phi_opp, Ropp_involutive, H. lra.
Qed.
Print Assumptions C124_tails.

(** The law of the values obtained from uniform numbers: [x <= z] happens for all uniforms up to
    [Phi z - 5e-10] and for none beyond [Phi z + 5e-10]. *)
Theorem C124_law : forall z u x, 0 < u < 1 -> snd_inv_cdf u = Ok x ->
  (u <= Phi z - 5/10000000000 -> x <= z) /\ (Phi z + 5/10000000000 < u -> z < x).
Proof.
  intros z u x U X. destruct (C124_accuracy u U) as (y & Y & A). rewrite X in Y. injection Y as <-. apply Rabs_le_between in A. split; intros H.
  - apply Rnot_lt_le. intros L. pose proof (Phi_incr z x L). lra.
  - apply Rnot_le_lt. intros [L| ->]; [pose proof (Phi_incr x z L)|]; lra.
Qed.
Print Assumptions C124_law.

(** The values obtained from a uniform number have a distribution function, [t] at [z]: the uniform
    numbers giving at most [z] are those below [t] (or up to [t]).  It is within 5e-10 of [Phi]. *)
Theorem C124_distribution : forall z, exists t, 0 <= t <= 1 /\ Rabs (t - Phi z) <= 5/10000000000 /\
  forall u x, 0 < u < 1 -> snd_inv_cdf u = Ok x -> (u < t -> x <= z) /\ (t < u -> z < x).
Proof.
  intros z. set (E := fun v => v = 0 \/ 0 < v < 1 /\ exists y, snd_inv_cdf v = Ok y /\ y <= z).
  destruct (completeness E) as (t & UB & LUB).
  { exists 1. intros v [->|V]; lra. } { exists 0. now left. }
  assert (T0 : 0 <= t) by (apply UB; now left).
  assert (T1 : t <= 1) by (apply LUB; intros v [->|V]; lra).
  assert (BELOW : forall u x, 0 < u < 1 -> snd_inv_cdf u = Ok x -> u < t -> x <= z).
  { intros u x U X L. apply Rnot_lt_le. intros N.
    assert (t <= u); [|lra]. apply LUB. intros v [->|(V & y & Y & YZ)]; [lra|]. apply Rnot_lt_le. intros UV.
    destruct (C29_increasing u v ltac:(lra) UV ltac:(lra)) as (x' & y' & X' & Y' & XY). rewrite X in X'. rewrite Y in Y'. injection X' as <-. injection Y' as <-. lra. }
  assert (ABOVE : forall u x, 0 < u < 1 -> snd_inv_cdf u = Ok x -> t < u -> z < x).
  { intros u x U X L. apply Rnot_le_lt. intros N. assert (u <= t) by (apply UB; right; split; [easy|now exists x]). lra. }
  exists t. split; [easy|]. split; [|intros u x U X; split; intros; [now apply (BELOW u)|now apply (ABOVE u)]].
  pose proof (Phi_strict z) as P. apply Rabs_le_between. split; apply Rnot_lt_le; intros N.
  - set (u := (t + (Phi z - 5/10000000000)) / 2). assert (U : 0 < u < 1) by (unfold u; lra).
    destruct (C124_accuracy u U) as (x & X & _). pose proof (proj1 (C124_law z u x U X) ltac:(unfold u; lra)).
    pose proof (ABOVE u x U X ltac:(unfold u; lra)). lra.
  - set (u := (t + (Phi z + 5/10000000000)) / 2). assert (U : 0 < u < 1) by (unfold u; lra).
    destruct (C124_accuracy u U) as (x & X & _). pose proof (proj2 (C124_law z u x U X) ltac:(unfold u; lra)).
    pose proof (BELOW u x U X ltac:(unfold u; lra)). lra.
Qed.
Print Assumptions C124_distribution.

(** The error of the quantile itself, on any interval holding the exact and the computed value. *)
Theorem C124_quantile : forall u x z m, 0 < u < 1 -> snd_inv_cdf u = Ok x -> Phi z = u ->
  Rabs x <= m -> Rabs z <= m -> Rabs (x - z) <= 5/10000000000 / phi m.
Proof.
  intros u x z m U X Z XM ZM. destruct (C124_accuracy u U) as (y & Y & A). rewrite X in Y. injection Y as <-.
  rewrite <- Z in A. apply Rabs_le_between in XM. apply Rabs_le_between in ZM. pose proof (phi_pos m) as PM.
  assert (LOW : forall t, - m <= t <= m -> phi m <= phi t).
  { intros t T. unfold phi. apply Rmult_le_compat_r; [left; apply Rinv_0_lt_compat, root_pos|].
    destruct (Req_dec (- (m * m) / 2) (- (t * t) / 2)) as [->|]; [right; reflexivity|left; apply exp_increasing; nra]. }
  assert (STEP : forall a b, - m <= a -> b <= m -> a <= b -> phi m * (b - a) <= Phi b - Phi a).
  { intros a b A0 B0 AB. enough ((fun t => Phi t - phi m * t) a <= (fun t => Phi t - phi m * t) b) by (cbn beta in *; lra).
    apply (L_ZPoly.grows (fun t => Phi t - phi m * t) (fun t => phi t - phi m * 1) a b); try lra.
    - intros t T. apply (is_derive_minus Phi (fun t => phi m * t)); [apply Phi_derive|]. apply is_derive_scal. apply @is_derive_id.
    - intros t T. specialize (LOW t ltac:(lra)). lra. }
  apply (Rmult_le_reg_r (phi m)); [easy|]. replace (5/10000000000 / phi m * phi m) with (5/10000000000) by (field; lra).
  apply Rabs_le_between in A. destruct (Rle_dec x z) as [L|L].
  - specialize (STEP x z ltac:(lra) ltac:(lra) L). rewrite Rabs_left1 by lra. lra.
  - specialize (STEP z x ltac:(lra) ltac:(lra) ltac:(lra)). rewrite Rabs_pos_eq by lra. lra.
Qed.
Print Assumptions C124_quantile.

(** The median comes out exactly, and the bounds above apply to a number of the tail. *)
Example C124_ex :
  snd_inv_cdf (1/2) = Ok (0 : R) /\ Phi 0 = 1/2 /\
  (exists x, snd_inv_cdf (1/1000) = Ok x /\ Rabs (Phi x - 1/1000) <= 4/1000000000000).
Proof.
  split; [|split; [apply Phi_0|]].
  - rewrite inv_cdf_R by lra. rewrite Rlt_bool_false by lra. unfold half_inv. rewrite Rlt_bool_true by (rewrite Rminus_eq_0, Rabs_R0; lra).
    rewrite Rminus_eq_0. f_equal. unfold cen. rewrite !Rmult_0_l. unfold Rdiv. rewrite ?Rmult_0_l. reflexivity.
  - destruct (C124_tails (1/1000) ltac:(lra)) as ((x & X & A) & _). exists x. split; [easy|lra].
Qed.
