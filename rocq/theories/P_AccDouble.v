(** C126: the quantile function computed in double precision. *)
From Coq Require Import List ZArith Reals Lra Lia Bool.
From Flocq Require Import Core BinarySingleNaN.
From Verif Require Import M_Num M_Outcome M_Random S_Prob S_Normal S_Double S_Libm L_Normal L_AccTail L_B64 L_Order L_McRound L_Near L_AccDouble.
Local Open Scope R_scope.

(** The code of standard_normal_distribution.cpp run in binary64, every operation and every literal
    rounded, against the integral [Phi].  The logarithm is the one of the C library: [accurate_log]
    says it is off by at most 1e-15 (1 + |ln x|). *)

(** Which branch, and on which number. *)
Lemma open64 : forall flog u, finite u -> 0 < val u < 1 ->
  exists up, finite up /\ 0 < val up <= 1/2 /\
    inv64 flog u = (let x := b64_sub up (lit64 5 1) in
      let sup := Rlt_bool (1/2) (val u) in
      if b64_ltb (abs64 x) (lit64 42 2) then Ok (if sup then b64_opp (cen64 x) else cen64 x)
      else let t := tl64 (flog (b64_opp (flog up))) in Ok (if sup then t else b64_opp t)) /\
    val up = (if Rlt_bool (1/2) (val u) then 1 - val u else val u).
Proof.
  intros flog u F U. destruct zero_fin as [F0 V0]. destruct one_fin as [F1 V1]. destruct half_val as [FH VH].
  exists (if b64_ltb (lit64 5 1) u then b64_sub (b64_ofZ 1) u else u).
  assert (S : b64_ltb (lit64 5 1) u = Rlt_bool (1/2) (val u)) by (rewrite ltb_val by (apply finite_notnan; easy); now rewrite VH).
  assert (G : inv64 flog u = (let sup := b64_ltb (lit64 5 1) u in
    let up := if sup then b64_sub (b64_ofZ 1) u else u in
    let x := b64_sub up (lit64 5 1) in
    if b64_ltb (abs64 x) (lit64 42 2) then Ok (if sup then b64_opp (cen64 x) else cen64 x)
    else let t := tl64 (flog (b64_opp (flog up))) in Ok (if sup then t else b64_opp t))).
  { unfold inv64. rewrite (leb_val u), (leb_val _ u), V0, V1 by (apply finite_notnan; easy).
    rewrite Rle_bool_false, Rle_bool_false by lra. reflexivity. }
  rewrite G. clear G. rewrite S. destruct (Rlt_bool_spec (1/2) (val u)) as [L|L].
  - destruct (one_minus u F ltac:(lra)) as [FO VO]. split; [exact FO|]. split; [rewrite VO; lra|]. split; [reflexivity|exact VO].
  - split; [exact F|]. split; [lra|]. split; reflexivity.
Qed.

Theorem C126_accuracy : forall fexp flog, accurate_log flog -> forall u : b64, finite u -> 0 < val u < 1 ->
  exists x, @snd_inv_cdf b64 (B64 fexp flog) u = Ok x /\ finite x /\ Rabs (Phi (val x) - val u) <= 5/10000000000.
Proof.
  intros fexp flog AC u F U. rewrite inv64_ok. destruct (open64 flog u F U) as (up & FU & PU & -> & VU). cbv zeta.
  destruct (b64_ltb (abs64 (b64_sub up (lit64 5 1))) (lit64 42 2)) eqn:B.
  - destruct (centre64 up FU PU B) as (FC & EC). set (c := cen64 (b64_sub up (lit64 5 1))) in *. apply Rabs_le_inv in EC.
    eexists. split; [reflexivity|]. rewrite VU in EC. destruct (Rlt_bool (1/2) (val u)).
    + split; [now apply finite_opp|]. rewrite val_opp, Phi_opp. apply Rabs_le. lra.
    + split; [exact FC|]. apply Rabs_le. lra.
  - pose proof (proj1 (branch_tail up FU PU) B) as S. destruct (tail64 flog up AC FU ltac:(lra)) as (FT & ET).
    set (t := tl64 (flog (b64_opp (flog up)))) in *. unfold kappa in ET. apply Rabs_le_inv in ET.
    eexists. split; [reflexivity|]. assert (P8 : val up <= 81/1000) by lra. rewrite VU in *. destruct (Rlt_bool (1/2) (val u)).
    + split; [exact FT|]. rewrite Phi_opp in ET. apply Rabs_le. lra.
    + split; [now apply finite_opp|]. rewrite val_opp. apply Rabs_le. lra.
Qed.
Print Assumptions C126_accuracy.

(** Between 8% and 92% the code calls no logarithm, and nothing is asked of the C library. *)
Theorem C126_centre : forall fexp flog (u : b64), finite u -> 81/1000 <= val u <= 919/1000 ->
  exists x, @snd_inv_cdf b64 (B64 fexp flog) u = Ok x /\ finite x /\ Rabs (Phi (val x) - val u) <= 49/100000000000.
Proof.
  intros fexp flog u F U. rewrite inv64_ok. destruct (open64 flog u F ltac:(lra)) as (up & FU & PU & -> & VU). cbv zeta.
  assert (B : b64_ltb (abs64 (b64_sub up (lit64 5 1))) (lit64 42 2) = true).
  { apply (branch_tail up FU PU). rewrite VU. destruct (Rlt_bool _ _); lra. }
  rewrite B. destruct (centre64 up FU PU B) as (FC & EC). set (c := cen64 (b64_sub up (lit64 5 1))) in *. apply Rabs_le_inv in EC.
  eexists. split; [reflexivity|]. rewrite VU in EC. destruct (Rlt_bool (1/2) (val u)).
  - split; [now apply finite_opp|]. rewrite val_opp, Phi_opp. apply Rabs_le. lra.
  - split; [exact FC|]. apply Rabs_le. lra.
Qed.
Print Assumptions C126_centre.

(** In the tails the error is proportional to the probability, down to 4e-12; [1 - u] loses nothing. *)
Theorem C126_tails : forall fexp flog, accurate_log flog -> forall u : b64, finite u ->
  (0 < val u <= 8/100 -> exists x, @snd_inv_cdf b64 (B64 fexp flog) u = Ok x /\ finite x /\
     Rabs (Phi (val x) - val u) <= 2/1000000000 * val u + 4/1000000000000) /\
  (92/100 <= val u < 1 -> exists x, @snd_inv_cdf b64 (B64 fexp flog) u = Ok x /\ finite x /\
     Rabs ((1 - Phi (val x)) - (1 - val u)) <= 2/1000000000 * (1 - val u) + 4/1000000000000).
Proof.
  intros fexp flog AC u F. rewrite inv64_ok. split; intros U.
  - destruct (open64 flog u F ltac:(lra)) as (up & FU & PU & -> & VU). rewrite Rlt_bool_false in * by lra. cbv zeta.
    rewrite (proj1 (proj2 (branch_tail up FU PU))) by lra.
    destruct (tail64 flog up AC FU ltac:(lra)) as (FT & ET). eexists. split; [reflexivity|]. split; [now apply finite_opp|].
    rewrite val_opp. unfold kappa in ET. rewrite VU in ET. apply Rabs_le_inv in ET. apply Rabs_le. lra.
  - destruct (open64 flog u F ltac:(lra)) as (up & FU & PU & -> & VU). rewrite Rlt_bool_true in * by lra. cbv zeta.
    rewrite (proj1 (proj2 (branch_tail up FU PU))) by lra.
    destruct (tail64 flog up AC FU ltac:(lra)) as (FT & ET). eexists. split; [reflexivity|]. split; [exact FT|].
    rewrite Phi_opp in ET. unfold kappa in ET. rewrite VU in ET. apply Rabs_le_inv in ET. apply Rabs_le. lra.
Qed.
Print Assumptions C126_tails.

(** The law of the doubles obtained: those at most [z] come from all numbers up to [Phi z - 5e-10]
    and from none beyond [Phi z + 5e-10]. *)
Theorem C126_law : forall fexp flog, accurate_log flog -> forall (u x : b64) z, finite u -> 0 < val u < 1 ->
  @snd_inv_cdf b64 (B64 fexp flog) u = Ok x ->
  (val u <= Phi z - 5/10000000000 -> val x <= z) /\ (Phi z + 5/10000000000 < val u -> z < val x).
Proof.
  intros fexp flog AC u x z F U X. destruct (C126_accuracy fexp flog AC u F U) as (y & Y & _ & A). rewrite X in Y. injection Y as <-. apply Rabs_le_inv in A. split; intros H.
  - apply Rnot_lt_le. intros L. pose proof (Phi_incr z (val x) L). lra.
  - apply Rnot_le_lt. intros [L| E]; [pose proof (Phi_incr (val x) z L)|rewrite <- E in H]; lra.
Qed.
Print Assumptions C126_law.

(** ** A library that qualifies: the true logarithm, rounded *)
Definition of_R (r : R) : b64 :=
  binary_normalize 53 1024 _ _ mode_NE (Ztrunc (scaled_mantissa radix2 (FLT_exp (-1074) 53) (rnd r)))
    (cexp radix2 (FLT_exp (-1074) 53) (rnd r)) false.
Lemma of_R_ok : forall r, Rabs r <= 100000000000000000000 -> finite (of_R r) /\ val (of_R r) = rnd r.
Proof.
  intros r B. pose proof (rnd_close r _ B) as C. pose proof big_INF. apply Rabs_le_inv in C. apply Rabs_le_inv in B. unfold u0, e0 in C.
  assert (G : generic_format radix2 (FLT_exp (-1074) 53) (rnd r)) by (unfold rnd; apply generic_format_round; [apply valid_exp_64|apply valid_rnd_N]).
  pose proof (binary_normalize_correct 53 1024 _ _ mode_NE (Ztrunc (scaled_mantissa radix2 (FLT_exp (-1074) 53) (rnd r))) (cexp radix2 (FLT_exp (-1074) 53) (rnd r)) false) as H1.
  cbv zeta in H1. fold (of_R r) in H1. unfold generic_format in G. rewrite <- G in H1.
  change (round radix2 (SpecFloat.fexp 53 1024) (round_mode mode_NE) (rnd r)) with (rnd (rnd r)) in H1.
  assert (RR : rnd (rnd r) = rnd r) by (unfold rnd at 1; apply round_generic; [apply valid_rnd_N|exact G]). rewrite RR in H1.
  rewrite Rlt_bool_true in H1 by (fold INF; apply Rabs_def1; lra). destruct H1 as (V & F & _). split; [exact F|]. now rewrite val_finite.
Qed.
Definition rounded_log (x : b64) : b64 := of_R (ln (val x)).
Lemma rounded_log_ok : accurate_log rounded_log.
Proof.
  intros x F P. pose proof (least x F P) as L.
  assert (U : ln (val x) <= 1024).
  { pose proof (val_bounds x F) as (_ & B). apply ln_increasing in B; [|easy]. unfold INF in B. rewrite bpow_exp, ln_exp in B.
    change (IZR radix2) with 2 in B. assert (ln 2 < 1). { rewrite <- (ln_exp 1). apply ln_increasing; [lra|]. pose proof (L_Accuracy.exp_1p (1/2)) as E. replace 1 with (1/2 + 1/2) by lra. rewrite exp_plus. nra. } lra. }
  destruct (of_R_ok (ln (val x))) as (F1 & V1); [apply Rabs_le; lra|]. split; [exact F1|]. unfold rounded_log. rewrite V1.
  eapply Rle_trans; [apply rnd_close; apply Rle_refl|]. pose proof (Rabs_pos (ln (val x))). unfold u0, e0. lra.
Qed.

(** The double nearest to one thousandth, with that library. *)
Example C126_ex : accurate_log rounded_log /\
  finite (lit64 1 3) /\ Rabs (val (lit64 1 3) - 1/1000) <= 1/1000000000000000 /\
  (forall fexp, exists x, @snd_inv_cdf b64 (B64 fexp rounded_log) (lit64 1 3) = Ok x /\ finite x /\ Rabs (Phi (val x) - 1/1000) <= 7/1000000000000).
Proof.
  split; [exact rounded_log_ok|].
  pose proof (near_lit 1 3 1000 (1/1000) eq_refl ltac:(lra) ltac:(rewrite Rabs_pos_eq; lra) ltac:(lra)) as (F & _ & E). unfold u0, e0 in E.
  split; [exact F|]. split; [lra|]. intros fexp. apply Rabs_le_inv in E.
  destruct (proj1 (C126_tails fexp _ rounded_log_ok _ F) ltac:(lra)) as (x & X & FX & A). exists x. split; [exact X|]. split; [exact FX|].
  apply Rabs_le_inv in A. apply Rabs_le. lra.
Qed.
