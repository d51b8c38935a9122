(** Expectations of the normal distribution function of a normal variable. *)
From Coq Require Import Reals Bool Lra Lia.
From Coquelicot Require Import Coquelicot.
From Verif Require Import S_Prob S_Normal L_Gauss L_Expect.
Local Open Scope R_scope.

Lemma phi_pos : forall z, 0 < phi z.
Proof. intros z. unfold phi. apply Rdiv_lt_0_compat; [apply exp_pos|]. apply sqrt_lt_R0. pose proof PI_RGT_0. lra. Qed.
Lemma phi_even : forall z, phi (- z) = phi z.
Proof. intros z. unfold phi. f_equal. f_equal. field. Qed.

Lemma PF_0 : PF 0 = 0.
Proof. pose proof (PF_odd 0) as H. rewrite Ropp_0 in H. lra. Qed.
Lemma RInt_phi : forall a b, is_RInt phi a b (PF b - PF a).
Proof.
  intros a b. apply (@is_RInt_derive R_CompleteNormedModule PF phi); intros x _; [apply PF_derive|apply phi_cont].
Qed.
Lemma Phi_PF : forall x, Phi x = 1 / 2 + PF x.
Proof.
  intros x. unfold Phi. pose proof (is_RInt_unique phi 0 x _ (RInt_phi 0 x)) as E. rewrite PF_0, Rminus_0_r in E.
  now rewrite E.
Qed.
Lemma Phi_opp : forall x, Phi (- x) = 1 - Phi x.
Proof. intros x. rewrite !Phi_PF, PF_odd. lra. Qed.
Lemma Phi_derive : forall x, is_derive Phi x (phi x).
Proof.
  intros x. eapply is_derive_ext; [intros t; symmetry; apply Phi_PF|].
  evar_last. apply @is_derive_plus; [apply @is_derive_const|apply PF_derive]. unfold plus, zero; cbn. ring.
Qed.
Lemma PF_incr : forall a b, a <= b -> PF a <= PF b.
Proof.
  intros a b H. destruct (Req_dec a b) as [->|N]; [lra|].
  assert (0 <= PF b - PF a); [|lra]. apply (is_RInt_le (fun _ => 0) phi a b 0); [easy| |apply RInt_phi|intros; left; apply phi_pos].
  replace 0 with (scal (b - a) 0) at 1 by (unfold scal; cbn; unfold mult; cbn; ring). apply (@is_RInt_const R_NormedModule).
Qed.
Lemma PF_bound : forall x, - (1 / 2) <= PF x <= 1 / 2.
Proof.
  assert (U : forall x, PF x <= 1 / 2).
  { intros x. destruct (Rle_dec (PF x) (1 / 2)) as [H|H]; [easy|exfalso].
    destruct (PF_lim (PF x - 1 / 2) ltac:(lra)) as (A & A0 & K). specialize (K (Rmax x A + 1)).
    pose proof (Rmax_l x A). pose proof (Rmax_r x A). specialize (K ltac:(lra)).
    pose proof (PF_incr x (Rmax x A + 1) ltac:(lra)). apply Rabs_def2 in K. lra. }
  intros x. split; [|apply U]. pose proof (U (- x)) as V. rewrite PF_odd in V. lra.
Qed.
Lemma Phi_bound : forall x, 0 <= Phi x <= 1.
Proof. intros x. rewrite Phi_PF. pose proof (PF_bound x). lra. Qed.

Lemma Phi_incr : forall x y, x < y -> Phi x < Phi y.
Proof.
  intros x y L. apply (incr_function Phi m_infty p_infty phi); try easy; intros z _ _; [apply Phi_derive|apply phi_pos].
Qed.
Lemma Phi_strict : forall x, 0 < Phi x < 1.
Proof.
  intros x. pose proof (Phi_incr x (x + 1) ltac:(lra)). pose proof (Phi_incr (x - 1) x ltac:(lra)).
  pose proof (Phi_bound (x + 1)). pose proof (Phi_bound (x - 1)). lra.
Qed.

(** ** Substitutions *)
Lemma integral_scale : forall f m c, 0 < c -> is_integral f m -> is_integral (fun x => c * f (c * x)) m.
Proof.
  intros f m c C H eps E. destruct (H eps E) as (A & A0 & K). exists (A / c). split; [now apply Rdiv_lt_0_compat|].
  assert (I0 : 0 < / c) by now apply Rinv_0_lt_compat.
  intros a b Ha Hb. destruct (K (c * a) (c * b)) as (I & HI & B).
  - apply (Rmult_lt_reg_r (/ c)); [easy|]. replace (c * a * / c) with a by (field; lra). unfold Rdiv in Ha. lra.
  - apply (Rmult_lt_reg_r (/ c)); [easy|]. replace (c * b * / c) with b by (field; lra). apply Hb.
  - exists I. split; [|easy].
    pose proof (@is_RInt_comp_lin R_NormedModule f c 0 a b I) as L. rewrite !Rplus_0_r in L. specialize (L HI).
    eapply is_RInt_ext; [|exact L]. intros x _. cbn. unfold scal; cbn; unfold mult; cbn. now rewrite Rplus_0_r.
Qed.
Lemma integral_shift : forall f m s, is_integral f m -> is_integral (fun x => f (x + s)) m.
Proof.
  intros f m s H eps E. destruct (H eps E) as (A & A0 & K). exists (A + Rabs s). pose proof (Rabs_pos s). split; [lra|].
  pose proof (Rle_abs s). pose proof (Rle_abs (- s)) as Hs. rewrite Rabs_Ropp in Hs.
  intros a b Ha Hb. destruct (K (a + s) (b + s) ltac:(lra) ltac:(lra)) as (I & HI & B). exists I. split; [|easy].
  pose proof (@is_RInt_comp_lin R_NormedModule f 1 s a b I) as L. rewrite !Rmult_1_l in L. specialize (L HI).
  eapply is_RInt_ext; [|exact L]. intros x _. cbn. unfold scal; cbn; unfold mult; cbn. now rewrite !Rmult_1_l.
Qed.
Lemma integral_opp : forall f m, is_integral f m -> is_integral (fun x => f (- x)) m.
Proof.
  intros f m H eps E. destruct (H eps E) as (A & A0 & K). exists A. split; [easy|].
  intros a b Ha Hb. destruct (K (- b) (- a) ltac:(lra) ltac:(lra)) as (I & HI & B). exists I. split; [|easy].
  apply (@is_RInt_swap R_NormedModule) in HI. apply (@is_RInt_comp_opp R_NormedModule) in HI.
  apply (@is_RInt_opp R_NormedModule) in HI. rewrite opp_opp in HI.
  eapply is_RInt_ext; [|exact HI]. intros x _. cbn. unfold opp; cbn. ring.
Qed.

Lemma Enormal_lin : forall f g m n a b, is_Enormal f m -> is_Enormal g n -> is_Enormal (fun z => a * f z + b * g z) (a * m + b * n).
Proof.
  intros f g m n a b F G. eapply is_integral_ext; [|exact (integral_lin _ _ _ _ a b F G)]. intros x. cbn. ring.
Qed.
Lemma Enormal_mono : forall f g m n, (forall z, f z <= g z) -> is_Enormal f m -> is_Enormal g n -> m <= n.
Proof.
  intros f g m n H F G. eapply integral_mono; [|exact F|exact G]. intros x. cbn. apply Rmult_le_compat_r; [left; apply phi_pos|apply H].
Qed.

(** Tilting by an exponential. *)
Lemma Enormal_tilt : forall f m C a b, is_Enormal (fun z => f (z + b)) m ->
  is_Enormal (fun z => C * exp (a + b * z) * f z) (C * exp (a + b * b / 2) * m).
Proof.
  intros f m C a b H. unfold is_Enormal in *.
  pose proof (integral_shift _ _ (- b) H) as S.
  pose proof (integral_lin _ _ _ _ (C * exp (a + b * b / 2)) 0 S S) as L.
  replace (C * exp (a + b * b / 2) * m + 0 * m) with (C * exp (a + b * b / 2) * m) in L by ring.
  eapply is_integral_ext; [|exact L]. intros z. cbn beta.
  replace (z + - b + b) with z by ring.
  assert (E : exp (a + b * z) * phi z = exp (a + b * b / 2) * phi (z + - b)).
  { unfold phi, Rdiv. rewrite <- !Rmult_assoc, <- !exp_plus. f_equal. f_equal. field. }
  replace (C * exp (a + b * z) * f z * phi z) with (C * f z * (exp (a + b * z) * phi z)) by ring. rewrite E. ring.
Qed.

(** A bounded continuous function has an expectation. *)
Lemma bounded_ex : forall f, (forall z, continuous f z) -> (forall z, 0 <= f z <= 1) -> exists m, is_Enormal f m.
Proof.
  intros f C B. set (F := fun z => f z * phi z).
  assert (FC : forall z, continuous F z) by (intros z; apply (@continuous_mult R_UniformSpace R_AbsRing); [apply C|apply phi_cont]).
  assert (EX : forall a b, ex_RInt F a b) by (intros; now apply ex_int).
  assert (F0 : forall z, 0 <= F z) by (intros z; apply Rmult_le_pos; [apply B|left; apply phi_pos]).
  assert (W : forall a a' b' b, a <= a' -> a' <= b' <= b -> RInt F a' b' <= RInt F a b).
  { intros a a' b' b Ha Hb. rewrite <- (RInt_Chasles F a a' b) by easy. rewrite <- (RInt_Chasles F a' b' b) by easy.
    assert (0 <= RInt F a a') by (apply RInt_ge_0; [lra|easy|intros; apply F0]).
    assert (0 <= RInt F b' b) by (apply RInt_ge_0; [lra|easy|intros; apply F0]).
    change (RInt F a' b' <= RInt F a a' + (RInt F a' b' + RInt F b' b)). lra. }
  assert (M : forall a b, a <= b -> RInt F a b <= 1).
  { intros a b H. apply Rle_trans with (PF b - PF a).
    - rewrite <- (is_RInt_unique _ _ _ _ (RInt_phi a b)). apply RInt_le; [easy|easy| |].
      + eexists; apply RInt_phi.
      + intros x _. unfold F. pose proof (phi_pos x). pose proof (B x). nra.
    - pose proof (PF_bound a). pose proof (PF_bound b). lra. }
  set (E := fun x => exists a b, a <= b /\ x = RInt F a b).
  destruct (completeness E) as (tot & U & L).
  - exists 1. intros x (a & b & H & ->). now apply M.
  - exists (RInt F 0 0), 0, 0. lra.
  - exists tot. intros eps Ep.
    assert (exists a b, a <= b /\ tot - eps < RInt F a b) as (a & b & H & G).
    { destruct (Classical_Prop.classic (exists a b, a <= b /\ tot - eps < RInt F a b)) as [H|H]; [exact H|exfalso].
      assert (tot <= tot - eps); [|lra]. apply L. intros x (a & b & H' & ->).
      destruct (Rle_dec (RInt F a b) (tot - eps)); [easy|]. exfalso. apply H. exists a, b. lra. }
    exists (Rabs a + Rabs b + 1). pose proof (Rabs_pos a). pose proof (Rabs_pos b). split; [lra|]. intros x y X Y.
    pose proof (Rle_abs b). pose proof (Rle_abs (- a)) as A1. rewrite Rabs_Ropp in A1.
    exists (RInt F x y). split; [now apply (@RInt_correct R_CompleteNormedModule)|].
    assert (RInt F a b <= RInt F x y) by (apply W; lra).
    assert (RInt F x y <= tot) by (apply U; exists x, y; lra).
    apply Rabs_def1; lra.
Qed.

(** Taylor bound for Phi. *)
Lemma phi_lip : forall x y, Rabs (phi y - phi x) <= Rabs (y - x).
Proof.
  intros x y.
  assert (P2 : 1 <= sqrt (2 * PI)).
  { rewrite <- sqrt_1. apply sqrt_le_1; pose proof PI2_1; lra. }
  destruct (MVT_gen phi x y (fun z => - z * phi z)) as (c & _ & E).
  - intros z _. unfold phi. auto_derive; [lra|]. unfold Rdiv. field. lra.
  - intros z _. apply continuity_pt_filterlim. apply phi_cont.
  - rewrite E, Rabs_mult. rewrite <- (Rmult_1_l (Rabs (y - x))) at 2. apply Rmult_le_compat_r; [apply Rabs_pos|].
    rewrite Rabs_mult, Rabs_Ropp, (Rabs_pos_eq (phi c)) by (left; apply phi_pos).
    unfold phi. apply Rle_trans with (Rabs c * exp (- (c * c) / 2)).
    + pose proof (Rabs_pos c). pose proof (exp_pos (- (c * c) / 2)). unfold Rdiv at 2.
      assert (/ sqrt (2 * PI) <= 1) by (rewrite <- Rinv_1; apply Rinv_le_contravar; lra).
      assert (0 <= Rabs c * exp (- (c * c) / 2)) by (apply Rmult_le_pos; lra). unfold Rdiv. nra.
    + assert (G : 1 + c * c / 2 <= exp (c * c / 2)).
      { destruct (Req_dec (c * c / 2) 0) as [Z|Z]; [rewrite Z, exp_0; lra|]. left. now apply exp_ineq1. }
      assert (X : exp (- (c * c) / 2) * exp (c * c / 2) = 1).
      { rewrite <- exp_plus. replace (- (c * c) / 2 + c * c / 2) with 0 by field. apply exp_0. }
      assert (Y : Rabs c <= 1 + c * c / 2).
      { replace (c * c) with (Rabs c * Rabs c) by (rewrite <- Rabs_mult; apply Rabs_pos_eq; nra). nra. }
      pose proof (exp_pos (- (c * c) / 2)). pose proof (Rabs_pos c). nra.
Qed.
Lemma Phi_taylor : forall x h, Rabs (Phi (x + h) - Phi x - h * phi x) <= h * h.
Proof.
  intros x h. destruct (MVT_gen Phi x (x + h) phi) as (c & Hc & E).
  - intros z _. apply Phi_derive.
  - intros z _. apply continuity_pt_filterlim. apply (cont_of_derive Phi). eexists; apply Phi_derive.
  - replace (x + h - x) with h in E by ring. rewrite E. replace (phi c * h - h * phi x) with (h * (phi c - phi x)) by ring.
    rewrite Rabs_mult. replace (h * h) with (Rabs h * Rabs h) by (rewrite <- Rabs_mult; apply Rabs_pos_eq; nra).
    apply Rmult_le_compat_l; [apply Rabs_pos|]. eapply Rle_trans; [apply phi_lip|].
    unfold Rmin, Rmax in Hc. destruct (Rle_dec x (x + h)).
    + rewrite !Rabs_pos_eq by lra. lra.
    + rewrite !Rabs_left1 by lra. lra.
Qed.

Lemma q_ge : forall b, 0 < sqrt (1 + b * b).
Proof. intros b. apply sqrt_lt_R0. nra. Qed.

Lemma Enormal_phi : forall a b, let q := sqrt (1 + b * b) in is_Enormal (fun z => phi (a + b * z)) (phi (a / q) / q).
Proof.
  intros a b q. pose proof (q_ge b) as Q. fold q in Q. assert (QQ : q * q = 1 + b * b) by (apply sqrt_sqrt; nra).
  assert (H : is_integral (fun y => phi (a / q) / q * phi (y - - (a * b / q))) (phi (a / q) / q)) by (apply (shifted_integral _ _ (- (a * b / q))); reflexivity).
  apply (integral_scale _ _ q Q) in H. eapply is_integral_ext; [|exact H]. intros z. cbn beta.
  replace (q * (phi (a / q) / q * phi (q * z - - (a * b / q)))) with (phi (a / q) * phi (q * z - - (a * b / q))) by (field; lra).
  unfold phi, Rdiv. rewrite <- !Rmult_assoc. f_equal.
  rewrite !(Rmult_comm _ (exp _)), <- !Rmult_assoc, <- !exp_plus. f_equal. f_equal.
  match goal with |- ?l = _ => replace l with (- (a * a * (1 + b * b) / (q * q) + q * q * z * z + 2 * a * b * z) / 2) by (field; lra) end.
  rewrite QQ. field. nra.
Qed.

Theorem Enormal_Phi : forall a b, is_Enormal (fun z => Phi (a + b * z)) (Phi (a / sqrt (1 + b * b))).
Proof.
  intros a b. set (q := sqrt (1 + b * b)). pose proof (q_ge b) as Q. fold q in Q.
  assert (EX : forall x, exists m, is_Enormal (fun z => Phi (x + b * z)) m).
  { intros x. apply bounded_ex; [|intros; apply Phi_bound]. intros z.
    apply (continuous_comp (fun z => x + b * z) Phi); apply cont_of_derive; [auto_derive; easy|eexists; apply Phi_derive]. }
  set (F := fun x z => Phi (x + b * z) * phi z).
  set (H := fun x => real (Lim_seq (fun n => RInt (F x) (- INR n) (INR n)))).
  assert (HE : forall x, is_Enormal (fun z => Phi (x + b * z)) (H x)).
  { intros x. destruct (EX x) as (m & M). replace (H x) with m; [exact M|]. unfold H. symmetry.
    rewrite (is_lim_seq_unique _ (Finite m)); [reflexivity|]. apply is_lim_seq_spec. intros eps.
    destruct (M eps (cond_pos eps)) as (A & A0 & K).
    destruct (nfloor_ex A ltac:(lra)) as (N & _ & NA). exists (S N). intros n Hn.
    assert (A < INR n) by (apply le_INR in Hn; rewrite S_INR in Hn; lra).
    destruct (K (- INR n) (INR n) ltac:(lra) ltac:(lra)) as (I & HI & B).
    unfold F. now rewrite (is_RInt_unique _ _ _ _ HI). }
  assert (HD : forall x, is_derive H x (phi (x / q) / q)).
  { intros x. apply is_derive_Reals. intros eps Ep. exists (mkposreal eps Ep). intros h H0 Hh. cbn in Hh.
    set (l := phi (x / q) / q).
    pose proof (Enormal_lin _ _ _ _ 1 (-1) (HE (x + h)) (HE x)) as D1.
    pose proof (Enormal_lin _ _ _ _ 1 (- h) D1 (Enormal_phi x b)) as D2. fold q in D2. fold l in D2.
    assert (T : forall z, Rabs (1 * (1 * Phi (x + h + b * z) + -1 * Phi (x + b * z)) + - h * phi (x + b * z)) <= h * h).
    { intros z. pose proof (Phi_taylor (x + b * z) h) as Ty. replace (x + b * z + h) with (x + h + b * z) in Ty by ring.
      replace (1 * (1 * Phi (x + h + b * z) + -1 * Phi (x + b * z)) + - h * phi (x + b * z))
        with (Phi (x + h + b * z) - Phi (x + b * z) - h * phi (x + b * z)) by ring. exact Ty. }
    assert (U : 1 * (1 * H (x + h) + -1 * H x) + - h * l <= h * h).
    { eapply Enormal_mono; [|exact D2|apply (Enormal_const (h * h))]. intros z. pose proof (Rle_abs (1 * (1 * Phi (x + h + b * z) + -1 * Phi (x + b * z)) + - h * phi (x + b * z))). specialize (T z). cbn. lra. }
    assert (V : - (h * h) <= 1 * (1 * H (x + h) + -1 * H x) + - h * l).
    { eapply Enormal_mono; [|apply (Enormal_const (- (h * h)))|exact D2]. intros z. pose proof (Rle_abs (- (1 * (1 * Phi (x + h + b * z) + -1 * Phi (x + b * z)) + - h * phi (x + b * z)))) as A1. rewrite Rabs_Ropp in A1. specialize (T z). cbn. lra. }
    replace ((H (x + h) - H x) / h - l) with ((H (x + h) - H x - h * l) / h) by (field; easy).
    unfold Rdiv. rewrite Rabs_mult, Rabs_inv. apply (Rmult_lt_reg_r (Rabs h)); [now apply Rabs_pos_lt|].
    rewrite Rmult_assoc, Rinv_l by (now apply Rabs_no_R0). rewrite Rmult_1_r.
    assert (HH : h * h = Rabs h * Rabs h) by (rewrite <- Rabs_mult; symmetry; apply Rabs_pos_eq; nra).
    pose proof (Rabs_pos_lt h H0). apply Rle_lt_trans with (h * h); [apply Rabs_le; lra|]. rewrite HH. now apply Rmult_lt_compat_r. }
  assert (H0 : H 0 = 1 / 2).
  { pose proof (Enormal_lin _ _ _ _ 1 (- (1 / 2)) (HE 0) (Enormal_const 1)) as O. cbn beta in O.
    assert (E : is_integral (fun z => PF (b * z) * phi z) (H 0 - 1 / 2)).
    { unfold is_Enormal in O. replace (1 * H 0 + - (1 / 2) * 1) with (H 0 - 1 / 2) in O by ring.
      eapply is_integral_ext; [|exact O]. intros z. cbn beta. rewrite Phi_PF, Rplus_0_l. field. }
    pose proof (integral_opp _ _ E) as E'.
    pose proof (integral_lin _ _ _ _ (-1) 0 E' E') as E2. cbn beta in E2.
    assert (X : H 0 - 1 / 2 = -1 * (H 0 - 1 / 2) + 0 * (H 0 - 1 / 2)).
    { eapply is_integral_unique; [exact E|]. eapply is_integral_ext; [|exact E2]. intros z. cbn beta.
      replace (b * - z) with (- (b * z)) by ring. rewrite PF_odd, phi_even. ring. }
    lra. }
  assert (DD : forall x, is_derive (fun y => H y - Phi (y / q)) x 0).
  { intros x. evar_last. apply @is_derive_minus; [apply HD|].
    apply (is_derive_comp Phi (fun y => y / q)); [apply Phi_derive|auto_derive; [easy|reflexivity]].
    unfold minus, plus, opp, scal; cbn; unfold mult; cbn. field. lra. }
  assert (K : H a - Phi (a / q) = H 0 - Phi (0 / q)).
  { destruct (Rtotal_order a 0) as [A|[->|A]]; [|reflexivity|].
    - apply (@eq_is_derive R_NormedModule (fun y => H y - Phi (y / q)) a 0); [intros; apply DD|easy].
    - symmetry. apply (@eq_is_derive R_NormedModule (fun y => H y - Phi (y / q)) 0 a); [intros; apply DD|easy]. }
  assert (Z : Phi (0 / q) = 1 / 2) by (replace (0 / q) with 0 by (field; lra); rewrite Phi_PF, PF_0; ring).
  replace (Phi (a / q)) with (H a) by lra. apply HE.
Qed.

(** The indicator of a half line; its value at the end point is irrelevant. *)
Lemma Enormal_half : forall (ind : R -> R) z0, (forall z, z0 < z -> ind z = 1) -> (forall z, z < z0 -> ind z = 0) ->
  is_Enormal ind (Phi (- z0)).
Proof.
  intros ind z0 P N eps Ep. destruct (PF_lim eps Ep) as (A & A0 & K).
  exists (A + Rabs z0). pose proof (Rabs_pos z0). split; [lra|]. intros a b Ha Hb.
  pose proof (Rle_abs z0). pose proof (Rle_abs (- z0)) as Hz. rewrite Rabs_Ropp in Hz.
  exists (PF b - PF z0). split.
  - replace (PF b - PF z0) with (plus 0 (PF b - PF z0)) by (unfold plus; cbn; ring).
    apply (@is_RInt_Chasles R_NormedModule) with z0.
    + replace 0 with (scal (z0 - a) 0) by (unfold scal; cbn; unfold mult; cbn; ring).
      eapply is_RInt_ext; [|apply (@is_RInt_const R_NormedModule)]. intros x X. rewrite Rmin_left, Rmax_right in X by lra.
      cbn. rewrite N by lra. ring.
    + eapply is_RInt_ext; [|apply RInt_phi]. intros x X. rewrite Rmin_left, Rmax_right in X by lra. cbn. rewrite P by lra. ring.
  - rewrite Phi_PF, PF_odd. replace (PF b - PF z0 - (1 / 2 + - PF z0)) with (PF b - 1 / 2) by ring. apply K. lra.
Qed.
