(** Facts about binary64 comparison and arithmetic in terms of [val]. *)
From Coq Require Import ZArith Reals Lra Lia Bool.
From Flocq Require Import Core BinarySingleNaN.
From Verif Require Import M_Num S_Double.
Local Open Scope R_scope.

Lemma INF_pos : 0 < INF.
Proof. apply bpow_gt_0. Qed.

Lemma val_finite : forall x, finite x -> val x = B2R x.
Proof. intros [s|[|]| |s m e H]; unfold finite; simpl; try easy. Qed.

Lemma finite_notnan : forall x, finite x -> notnan x.
Proof. intros [s|[|]| |s m e H]; unfold finite, notnan; simpl; easy. Qed.

Lemma val_lt_INF : forall x, finite x -> Rabs (val x) < INF.
Proof.
  intros x F. rewrite val_finite by easy. apply abs_B2R_lt_emax.
Qed.

Lemma val_bounds : forall x, finite x -> - INF < val x < INF.
Proof. intros x F. pose proof (val_lt_INF x F) as H. apply Rabs_def2 in H. lra. Qed.

Lemma val_le_INF : forall x, notnan x -> - INF <= val x <= INF.
Proof.
  intros x N. pose proof INF_pos.
  assert (finite x -> - INF <= val x <= INF) by (intros F; pose proof (val_bounds x F); lra).
  destruct x as [s|[|]| |s m e H1]; try (now discriminate N); try (now apply H0); simpl val; lra.
Qed.

Lemma notnan_cases : forall x, notnan x -> finite x \/ x = B754_infinity true \/ x = B754_infinity false.
Proof. intros [s|[|]| |s m e H] N; unfold finite; simpl; auto. Qed.

(** ** comparison *)
Lemma ltb_nan_l : forall x y, is_nan x = true -> b64_ltb x y = false.
Proof. now intros [s|[|]| |s m e H] y N. Qed.
Lemma ltb_nan_r : forall x y, is_nan y = true -> b64_ltb x y = false.
Proof. intros [s|[|]| |s m e H] [s'|[|]| |s' m' e' H'] N; easy. Qed.
Lemma leb_nan_l : forall x y, is_nan x = true -> b64_leb x y = false.
Proof. now intros [s|[|]| |s m e H] y N. Qed.
Lemma leb_nan_r : forall x y, is_nan y = true -> b64_leb x y = false.
Proof. intros [s|[|]| |s m e H] [s'|[|]| |s' m' e' H'] N; easy. Qed.
Lemma eqb_nan_l : forall x y, is_nan x = true -> b64_eqb x y = false.
Proof. now intros [s|[|]| |s m e H] y N. Qed.
Lemma eqb_nan_r : forall x y, is_nan y = true -> b64_eqb x y = false.
Proof. intros [s|[|]| |s m e H] [s'|[|]| |s' m' e' H'] N; easy. Qed.

Lemma ltb_val : forall x y, notnan x -> notnan y -> b64_ltb x y = Rlt_bool (val x) (val y).
Proof.
  intros x y Nx Ny. pose proof INF_pos.
  destruct (notnan_cases x Nx) as [F|[->| ->]]; destruct (notnan_cases y Ny) as [G|[->| ->]].
  - rewrite !val_finite by easy. now apply Bltb_correct.
  - pose proof (val_bounds x F). simpl (val (B754_infinity true)).
    rewrite Rlt_bool_false by lra. now destruct x as [s|[|]| |s m e H'].
  - pose proof (val_bounds x F). simpl (val (B754_infinity false)).
    rewrite Rlt_bool_true by lra. now destruct x as [s|[|]| |s m e H'].
  - pose proof (val_bounds y G). simpl (val (B754_infinity true)).
    rewrite Rlt_bool_true by lra. now destruct y as [s|[|]| |s m e H'].
  - simpl. rewrite Rlt_bool_false by lra. easy.
  - simpl. rewrite Rlt_bool_true by lra. easy.
  - pose proof (val_bounds y G). simpl (val (B754_infinity false)).
    rewrite Rlt_bool_false by lra. now destruct y as [s|[|]| |s m e H'].
  - simpl. rewrite Rlt_bool_false by lra. easy.
  - simpl. rewrite Rlt_bool_false by lra. easy.
Qed.

Lemma leb_val : forall x y, notnan x -> notnan y -> b64_leb x y = Rle_bool (val x) (val y).
Proof.
  intros x y Nx Ny. pose proof INF_pos.
  destruct (notnan_cases x Nx) as [F|[->| ->]]; destruct (notnan_cases y Ny) as [G|[->| ->]].
  - rewrite !val_finite by easy. now apply Bleb_correct.
  - pose proof (val_bounds x F). simpl (val (B754_infinity true)).
    rewrite Rle_bool_false by lra. now destruct x as [s|[|]| |s m e H'].
  - pose proof (val_bounds x F). simpl (val (B754_infinity false)).
    rewrite Rle_bool_true by lra. now destruct x as [s|[|]| |s m e H'].
  - pose proof (val_bounds y G). simpl (val (B754_infinity true)).
    rewrite Rle_bool_true by lra. now destruct y as [s|[|]| |s m e H'].
  - simpl. rewrite Rle_bool_true by lra. easy.
  - simpl. rewrite Rle_bool_true by lra. easy.
  - pose proof (val_bounds y G). simpl (val (B754_infinity false)).
    rewrite Rle_bool_false by lra. now destruct y as [s|[|]| |s m e H'].
  - simpl. rewrite Rle_bool_false by lra. easy.
  - simpl. rewrite Rle_bool_true by lra. easy.
Qed.

Lemma eqb_val : forall x y, notnan x -> notnan y -> b64_eqb x y = Req_bool (val x) (val y).
Proof.
  intros x y Nx Ny. pose proof INF_pos.
  destruct (notnan_cases x Nx) as [F|[->| ->]]; destruct (notnan_cases y Ny) as [G|[->| ->]].
  - rewrite !val_finite by easy. now apply Beqb_correct.
  - pose proof (val_bounds x F). simpl (val (B754_infinity true)).
    rewrite Req_bool_false by lra. now destruct x as [s|[|]| |s m e H'].
  - pose proof (val_bounds x F). simpl (val (B754_infinity false)).
    rewrite Req_bool_false by lra. now destruct x as [s|[|]| |s m e H'].
  - pose proof (val_bounds y G). simpl (val (B754_infinity true)).
    rewrite Req_bool_false by lra. now destruct y as [s|[|]| |s m e H'].
  - simpl. rewrite Req_bool_true by lra. easy.
  - simpl. rewrite Req_bool_false by lra. easy.
  - pose proof (val_bounds y G). simpl (val (B754_infinity false)).
    rewrite Req_bool_false by lra. now destruct y as [s|[|]| |s m e H'].
  - simpl. rewrite Req_bool_false by lra. easy.
  - simpl. rewrite Req_bool_true by lra. easy.
Qed.

Lemma eqb_true_notnan : forall x y, b64_eqb x y = true -> notnan x /\ notnan y.
Proof.
  intros x y E. unfold notnan. split.
  - destruct (is_nan x) eqn:N; [|easy]. now rewrite eqb_nan_l in E.
  - destruct (is_nan y) eqn:N; [|easy]. now rewrite eqb_nan_r in E.
Qed.

Lemma eqb_true_iff : forall x y,
  b64_eqb x y = true <-> notnan x /\ notnan y /\ val x = val y.
Proof.
  intros x y. split.
  - intros E. destruct (eqb_true_notnan _ _ E) as [Nx Ny]. repeat split; try easy.
    rewrite eqb_val in E by easy. now destruct (Req_bool_spec (val x) (val y)).
  - intros (Nx & Ny & V). rewrite eqb_val by easy. now apply Req_bool_true.
Qed.

Lemma ltb_true_iff : forall x y,
  b64_ltb x y = true <-> notnan x /\ notnan y /\ val x < val y.
Proof.
  intros x y. split.
  - intros E.
    assert (notnan x) by (unfold notnan; destruct (is_nan x) eqn:N; [now rewrite ltb_nan_l in E|easy]).
    assert (notnan y) by (unfold notnan; destruct (is_nan y) eqn:N; [now rewrite ltb_nan_r in E|easy]).
    repeat split; try easy. rewrite ltb_val in E by easy.
    now destruct (Rlt_bool_spec (val x) (val y)).
  - intros (Nx & Ny & V). rewrite ltb_val by easy. now apply Rlt_bool_true.
Qed.

Lemma leb_true_iff : forall x y,
  b64_leb x y = true <-> notnan x /\ notnan y /\ val x <= val y.
Proof.
  intros x y. split.
  - intros E.
    assert (notnan x) by (unfold notnan; destruct (is_nan x) eqn:N; [now rewrite leb_nan_l in E|easy]).
    assert (notnan y) by (unfold notnan; destruct (is_nan y) eqn:N; [now rewrite leb_nan_r in E|easy]).
    repeat split; try easy. rewrite leb_val in E by easy.
    now destruct (Rle_bool_spec (val x) (val y)).
  - intros (Nx & Ny & V). rewrite leb_val by easy. now apply Rle_bool_true.
Qed.

Lemma ltb_false_val : forall x y, notnan x -> notnan y -> b64_ltb x y = false -> val y <= val x.
Proof. intros x y Nx Ny. rewrite ltb_val by easy. now destruct (Rlt_bool_spec (val x) (val y)). Qed.

(** ** rounding *)
Lemma round_rnd : forall r,
  round radix2 (SpecFloat.fexp 53 1024) (round_mode mode_NE) r = rnd r.
Proof. reflexivity. Qed.

#[export] Instance valid_exp_64 : Valid_exp (FLT_exp (-1074) 53).
Proof. apply FLT_exp_valid. reflexivity. Qed.

Lemma rnd_le : forall a b, a <= b -> rnd a <= rnd b.
Proof. intros. apply round_le; auto. apply valid_exp_64. apply valid_rnd_N. Qed.

Lemma rnd_0 : rnd 0 = 0.
Proof. apply round_0. apply valid_rnd_N. Qed.

Lemma rnd_opp : forall a, rnd (- a) = - rnd a.
Proof. intros. apply round_NE_opp. Qed.

Lemma rnd_B2R : forall x : b64, rnd (B2R x) = B2R x.
Proof.
  intros x. apply round_generic. apply valid_rnd_N.
  apply (generic_format_B2R 53 1024 x).
Qed.

Lemma rnd_nonneg : forall a, 0 <= a -> 0 <= rnd a.
Proof. intros a H. rewrite <- rnd_0. now apply rnd_le. Qed.

Lemma clamp_le : forall a b, a <= b -> clamp a <= clamp b.
Proof.
  intros a b H. unfold clamp. apply Rle_max_compat_l. now apply Rle_min_compat_l.
Qed.

Lemma clamp_id : forall a, - INF <= a <= INF -> clamp a = a.
Proof. intros a [H1 H2]. unfold clamp. rewrite Rmin_right, Rmax_right; lra. Qed.

Lemma clamp_opp : forall a, clamp (- a) = - clamp a.
Proof.
  intros a. pose proof INF_pos. unfold clamp, Rmax, Rmin.
  repeat destruct Rle_dec; lra.
Qed.

Lemma fl_le : forall a b, a <= b -> fl a <= fl b.
Proof. intros. apply clamp_le, rnd_le, H. Qed.
Lemma fl_opp : forall a, fl (- a) = - fl a.
Proof. intros. unfold fl. now rewrite rnd_opp, clamp_opp. Qed.
Lemma fl_0 : fl 0 = 0.
Proof. unfold fl. rewrite rnd_0. pose proof INF_pos. apply clamp_id. lra. Qed.
Lemma fl_nonneg : forall a, 0 <= a -> 0 <= fl a.
Proof. intros. rewrite <- fl_0. now apply fl_le. Qed.
Lemma fl_nonpos : forall a, a <= 0 -> fl a <= 0.
Proof. intros. rewrite <- fl_0. now apply fl_le. Qed.
Lemma fl_val : forall x, notnan x -> finite x -> fl (val x) = val x.
Proof.
  intros x _ F. rewrite val_finite by easy. unfold fl. rewrite rnd_B2R.
  pose proof (val_bounds x F). rewrite val_finite in H by easy. apply clamp_id. lra.
Qed.
Lemma fl_bounds : forall a, - INF <= fl a <= INF.
Proof.
  intros. unfold fl, clamp. pose proof INF_pos.
  split. apply Rmax_l. apply Rmax_lub. lra. apply Rmin_l.
Qed.

Lemma overflow_val : forall (z : b64) s, B2SF z = binary_overflow 53 1024 mode_NE s ->
  z = B754_infinity s.
Proof. intros [x|x| |x m e H] s; simpl; intros E; try discriminate; try (injection E as ->; reflexivity). Qed.

Lemma fl_overflow_pos : forall a, 0 <= a -> ~ (Rabs (rnd a) < INF) -> fl a = INF.
Proof.
  intros a H N. pose proof (rnd_nonneg a H). pose proof INF_pos.
  rewrite Rabs_pos_eq in N by easy. unfold fl, clamp. rewrite Rmin_left, Rmax_right; lra.
Qed.
Lemma fl_overflow_neg : forall a, a <= 0 -> ~ (Rabs (rnd a) < INF) -> fl a = - INF.
Proof.
  intros a H N. replace a with (- - a) by lra. rewrite fl_opp. f_equal.
  apply fl_overflow_pos. lra. now rewrite rnd_opp, Rabs_Ropp.
Qed.

Lemma sign_val : forall x, finite x -> (Bsign x = true -> val x <= 0) /\ (Bsign x = false -> 0 <= val x).
Proof.
  intros x F. rewrite val_finite by easy.
  destruct x as [s|s| |s m e H]; simpl; split; intros E; subst; try lra; try discriminate F.
  - apply F2R_le_0. easy.
  - apply F2R_ge_0. easy.
Qed.

(** Addition and subtraction of finite doubles are never NaN and are the correctly
    rounded exact result (an infinity on overflow). *)
Lemma val_add : forall x y, finite x -> finite y ->
  notnan (b64_add x y) /\ val (b64_add x y) = fl (val x + val y).
Proof.
  intros x y Fx Fy. pose proof (Bplus_correct 53 1024 _ _ mode_NE x y Fx Fy) as H.
  rewrite round_rnd in H. unfold b64_add. rewrite (val_finite x), (val_finite y) by easy.
  destruct (Rlt_bool_spec (Rabs (rnd (B2R x + B2R y))) (bpow radix2 1024)) as [L|L].
  - destruct H as (H1 & H2 & _). split. now apply finite_notnan.
    rewrite val_finite by easy. rewrite H1. unfold fl. rewrite clamp_id. easy.
    apply Rabs_def2 in L. unfold INF. lra.
  - destruct H as (H1 & H2). apply overflow_val in H1. rewrite H1. split. easy.
    pose proof (sign_val x Fx) as [A1 A2]. pose proof (sign_val y Fy) as [B1 B2].
    rewrite (val_finite x) in A1, A2 by easy. rewrite (val_finite y) in B1, B2 by easy.
    destruct (Bsign x) eqn:E; simpl val.
    + specialize (A1 eq_refl). specialize (B1 (eq_sym H2)). symmetry.
      apply fl_overflow_neg. lra. unfold INF. lra.
    + specialize (A2 eq_refl). specialize (B2 (eq_sym H2)). symmetry.
      apply fl_overflow_pos. lra. unfold INF. lra.
Qed.

Lemma val_sub : forall x y, finite x -> finite y ->
  notnan (b64_sub x y) /\ val (b64_sub x y) = fl (val x - val y).
Proof.
  intros x y Fx Fy. pose proof (Bminus_correct 53 1024 _ _ mode_NE x y Fx Fy) as H.
  rewrite round_rnd in H. unfold b64_sub. rewrite (val_finite x), (val_finite y) by easy.
  destruct (Rlt_bool_spec (Rabs (rnd (B2R x - B2R y))) (bpow radix2 1024)) as [L|L].
  - destruct H as (H1 & H2 & _). split. now apply finite_notnan.
    rewrite val_finite by easy. rewrite H1. unfold fl. rewrite clamp_id. easy.
    apply Rabs_def2 in L. unfold INF. lra.
  - destruct H as (H1 & H2). apply overflow_val in H1. rewrite H1. split. easy.
    pose proof (sign_val x Fx) as [A1 A2]. pose proof (sign_val y Fy) as [B1 B2].
    rewrite (val_finite x) in A1, A2 by easy. rewrite (val_finite y) in B1, B2 by easy.
    destruct (Bsign x) eqn:E; simpl val; destruct (Bsign y) eqn:E'; try discriminate.
    + specialize (A1 eq_refl). specialize (B2 eq_refl). symmetry.
      apply fl_overflow_neg. lra. unfold INF. lra.
    + specialize (A2 eq_refl). specialize (B1 eq_refl). symmetry.
      apply fl_overflow_pos. lra. unfold INF. lra.
Qed.

(** ** constants *)
Lemma n0_val : val (n0 : b64) = 0.
Proof. reflexivity. Qed.
Lemma n0_finite : finite (n0 : b64).
Proof. reflexivity. Qed.
Lemma n0_notnan : notnan (n0 : b64).
Proof. reflexivity. Qed.

Lemma n1_val : val (n1 : b64) = 1.
Proof.
  unfold n1. cbn. unfold F2R. cbn. lra.
Qed.
Lemma n1_notnan : notnan (n1 : b64).
Proof. reflexivity. Qed.
Lemma n1_finite : finite (n1 : b64).
Proof. reflexivity. Qed.

#[global] Arguments n0 : simpl never.
#[global] Arguments n1 : simpl never.
#[global] Arguments b64_ltb : simpl never.
#[global] Arguments b64_leb : simpl never.
#[global] Arguments b64_eqb : simpl never.
#[global] Arguments b64_add : simpl never.
#[global] Arguments b64_sub : simpl never.
#[global] Arguments b64_mul : simpl never.
#[global] Arguments b64_div : simpl never.
#[global] Arguments b64_ofZ : simpl never.
