(** The Black-Scholes values solve the Black-Scholes equation. *)
From Coq Require Import List ZArith Reals Bool Lra Lia.
From Coquelicot Require Import Coquelicot.
From Verif Require Import M_Payoff S_Prob S_Normal S_MonteCarlo S_Option S_Pde L_Gauss L_Expect L_Normal.
Local Open Scope R_scope.

Section Equation.
Variables (sigma r c : R).
Hypothesis sigma0 : 0 < sigma.

(** u_t = sigma^2 x^2 / 2 u_xx + (r - c) x u_x - r u at (t, x). *)
Definition solves_at (u : R -> R -> R) (t x : R) : Prop :=
  exists (ux : R -> R) (ut uxx : R),
    is_derive (fun s => u s x) t ut /\ (forall y, 0 < y -> is_derive (u t) y (ux y)) /\ is_derive ux x uxx /\
    ut = sigma * sigma * x * x / 2 * uxx + (r - c) * x * ux x - r * u t x.
Definition solves (u : R -> R -> R) : Prop := forall t x, 0 < t -> 0 < x -> solves_at u t x.

Lemma near_pos : forall x, 0 < x -> locally x (fun y => 0 < y).
Proof.
  intros x X. assert (H : 0 < x / 2) by lra. exists (mkposreal _ H). intros y Y.
  unfold ball in Y; cbn in Y. unfold AbsRing_ball, abs, minus, plus, opp in Y; cbn in Y. apply Rabs_def2 in Y. lra.
Qed.

Lemma solves_ext : forall u v, (forall t x, 0 < t -> 0 < x -> u t x = v t x) -> solves u -> solves v.
Proof.
  intros u v E H t x T X. destruct (H t x T X) as (ux & ut & uxx & D1 & D2 & D3 & EQ).
  exists ux, ut, uxx. split; [|split; [|split; [exact D3|]]].
  - eapply is_derive_ext_loc; [|exact D1]. generalize (near_pos t T). apply filter_imp. intros s S. now apply E.
  - intros y Y. eapply is_derive_ext_loc; [|exact (D2 y Y)]. generalize (near_pos y Y). apply filter_imp. intros s S. now apply E.
  - now rewrite <- E.
Qed.
Lemma solves_lin : forall u v a b, solves u -> solves v -> solves (fun t x => a * u t x + b * v t x).
Proof.
  intros u v a b HU HV t x T X. destruct (HU t x T X) as (ux & ut & uxx & D1 & D2 & D3 & E1).
  destruct (HV t x T X) as (vx & vt & vxx & F1 & F2 & F3 & E2).
  exists (fun y => a * ux y + b * vx y), (a * ut + b * vt), (a * uxx + b * vxx).
  assert (L : forall f g x f' g', is_derive f x f' -> is_derive g x g' -> is_derive (fun y => a * f y + b * g y) x (a * f' + b * g')).
  { intros f g y f' g' Hf Hg. apply (@is_derive_plus R_AbsRing R_NormedModule (fun y => a * f y) (fun y => b * g y));
    [exact (is_derive_scal f y a f' Hf)|exact (is_derive_scal g y b g' Hg)]. }
  split; [now apply (L (fun s => u s x) (fun s => v s x))|]. split; [intros y Y; apply L; [now apply D2|now apply F2]|].
  split; [now apply L|].
  rewrite E1, E2. cbn beta. ring.
Qed.

Lemma solves_cash : solves (fun t _ => exp (- r * t)).
Proof.
  intros t x T X. exists (fun _ => 0), (- r * exp (- r * t)), 0. split; [auto_derive; [easy|ring]|].
  split; [intros; apply @is_derive_const|]. split; [apply @is_derive_const|]. ring.
Qed.
Lemma solves_stock : solves (fun t x => x * exp (- c * t)).
Proof.
  intros t x T X. exists (fun _ => exp (- c * t)), (- c * (x * exp (- c * t))), 0. split; [auto_derive; [easy|ring]|].
  split; [intros; auto_derive; [easy|ring]|]. split; [apply @is_derive_const|]. ring.
Qed.

Section Strike.
Variable L : R.   (* ln K *)
Definition h (m t x : R) : R := (ln x - L + m * t) / (sigma * sqrt t).
Lemma h_x : forall m t x, 0 < t -> 0 < x -> is_derive (h m t) x (/ (x * (sigma * sqrt t))).
Proof.
  intros m t x T X. assert (0 < sqrt t) by (now apply sqrt_lt_R0). unfold h. auto_derive; [easy|]. field. lra.
Qed.
Lemma h_t : forall m t x, 0 < t -> is_derive (fun s => h m s x) t (m / (sigma * sqrt t) - h m t x / (2 * t)).
Proof.
  intros m t x T. assert (P : 0 < sqrt t) by (now apply sqrt_lt_R0). unfold h. auto_derive; [repeat split; try easy; nra|].
  assert (TT : t = sqrt t * sqrt t) by (rewrite sqrt_sqrt; lra). revert P TT. generalize (sqrt t). intros s P ->. field. lra.
Qed.
Lemma phi_derive : forall z, is_derive phi z (- z * phi z).
Proof.
  intros z. unfold phi. auto_derive.
  - easy.
  - pose proof PI_RGT_0. assert (sqrt (2 * PI) <> 0) by (apply Rgt_not_eq, sqrt_lt_R0; lra).
    change (- (z * z) / 2) with (- (z * z) * / 2). generalize (exp (- (z * z) * / 2)). intros e. field. easy.
Qed.

Lemma comp_derive : forall (f g : R -> R) x g' f', is_derive g x g' -> is_derive f (g x) f' -> is_derive (fun y => f (g y)) x (g' * f').
Proof. intros f g x g' f' G F. exact (is_derive_comp f g x f' g' F G). Qed.
Lemma mult_derive : forall (f g : R -> R) x f' g', is_derive f x f' -> is_derive g x g' -> is_derive (fun y => f y * g y) x (f' * g x + f x * g').
Proof. intros f g x f' g' F G. exact (is_derive_mult f g x f' g' F G Rmult_comm). Qed.

Lemma solves_digital : solves (fun t x => exp (- r * t) * Phi (h (r - c - sigma * sigma / 2) t x)).
Proof.
  intros t x T X. set (m := r - c - sigma * sigma / 2). assert (P : 0 < sqrt t) by (now apply sqrt_lt_R0).
  assert (TT : t = sqrt t * sqrt t) by (rewrite sqrt_sqrt; lra).
  set (e := exp (- r * t)). set (q := sigma * sqrt t). assert (Q : 0 < q) by (unfold q; nra).
  exists (fun y => e * (/ (y * q) * phi (h m t y))),
    (- r * e * Phi (h m t x) + e * ((m / q - h m t x / (2 * t)) * phi (h m t x))),
    (e * (- / (x * x * q) * phi (h m t x) + / (x * q) * (/ (x * q) * (- h m t x * phi (h m t x))))).
  split.
  { apply (mult_derive (fun s => exp (- r * s)) (fun s => Phi (h m s x))); [unfold e; auto_derive; [easy|ring]|].
    apply (comp_derive Phi (fun s => h m s x)); [now apply h_t|apply Phi_derive]. }
  split.
  { intros y Y. apply is_derive_scal. apply (comp_derive Phi (h m t)); [now apply h_x|apply Phi_derive]. }
  split.
  { apply is_derive_scal. apply (mult_derive (fun y => / (y * q)) (fun y => phi (h m t y))).
    - auto_derive; [nra|]. field. lra.
    - apply (comp_derive phi (h m t)); [now apply h_x|apply phi_derive]. }
  unfold q; clear q Q. generalize (phi (h m t x)) (Phi (h m t x)) (h m t x). intros p P' H. unfold e; generalize (exp (- r * t)); intros e'.
  unfold m. revert P TT. generalize (sqrt t). intros s P ->. field. lra.
Qed.

Lemma solves_asset : solves (fun t x => x * exp (- c * t) * Phi (h (r - c + sigma * sigma / 2) t x)).
Proof.
  intros t x T X. set (m := r - c + sigma * sigma / 2). assert (P : 0 < sqrt t) by (now apply sqrt_lt_R0).
  assert (TT : t = sqrt t * sqrt t) by (rewrite sqrt_sqrt; lra).
  set (e := exp (- c * t)). set (q := sigma * sqrt t). assert (Q : 0 < q) by (unfold q; nra).
  exists (fun y => e * Phi (h m t y) + e / q * phi (h m t y)),
    (- c * (x * e) * Phi (h m t x) + x * e * ((m / q - h m t x / (2 * t)) * phi (h m t x))),
    (e * (/ (x * q) * phi (h m t x)) + e / q * (/ (x * q) * (- h m t x * phi (h m t x)))).
  split.
  { apply (mult_derive (fun s => x * exp (- c * s)) (fun s => Phi (h m s x))); [unfold e; auto_derive; [easy|ring]|].
    apply (comp_derive Phi (fun s => h m s x)); [now apply h_t|apply Phi_derive]. }
  split.
  { intros y Y. replace (e * Phi (h m t y) + e / q * phi (h m t y)) with (e * Phi (h m t y) + y * e * (/ (y * q) * phi (h m t y))) by (field; lra).
    apply (mult_derive (fun y => y * e) (fun y => Phi (h m t y))); [auto_derive; [easy|ring]|].
    apply (comp_derive Phi (h m t)); [now apply h_x|apply Phi_derive]. }
  split.
  { apply (@is_derive_plus R_AbsRing R_NormedModule (fun y => e * Phi (h m t y)) (fun y => e / q * phi (h m t y))); apply is_derive_scal.
    - apply (comp_derive Phi (h m t)); [now apply h_x|apply Phi_derive].
    - apply (comp_derive phi (h m t)); [now apply h_x|apply phi_derive]. }
  unfold q; clear q Q. generalize (phi (h m t x)) (Phi (h m t x)) (h m t x). intros p P' H. unfold e; generalize (exp (- c * t)); intros e'.
  unfold m. revert P TT. generalize (sqrt t). intros s P ->. field. lra.
Qed.
End Strike.

(** ** The values *)
Definition value := bs_value sigma r c.

Lemma d1_h : forall K t x, 0 < K -> 0 < t -> 0 < x ->
  black_d1 (x * exp ((r - c) * t)) K (sigma * sqrt t) = h (ln K) (r - c + sigma * sigma / 2) t x.
Proof.
  intros K t x K0 T X. assert (P : 0 < sqrt t) by (now apply sqrt_lt_R0). unfold black_d1, h.
  rewrite ln_div, ln_mult, ln_exp by (try apply Rmult_lt_0_compat; try apply exp_pos; easy).
  replace (sigma * sqrt t * (sigma * sqrt t)) with (sigma * sigma * (sqrt t * sqrt t)) by ring. rewrite sqrt_sqrt by lra. f_equal. field.
Qed.
Lemma d2_h : forall K t x, 0 < K -> 0 < t -> 0 < x ->
  black_d2 (x * exp ((r - c) * t)) K (sigma * sqrt t) = h (ln K) (r - c - sigma * sigma / 2) t x.
Proof.
  intros K t x K0 T X. unfold black_d2. rewrite d1_h by easy. assert (P : 0 < sqrt t) by (now apply sqrt_lt_R0). unfold h.
  replace (sigma * sqrt t) with (sigma * sigma * (sqrt t * sqrt t) / (sigma * sqrt t)) at 2 by (field; lra). rewrite sqrt_sqrt by lra.
  field. lra.
Qed.

Lemma value_solves : forall pay, positive_strikes pay -> solves (value pay).
Proof.
  assert (C1 : forall K, 0 < K -> solves (fun t x => exp (- r * t) * Phi (black_d2 (x * exp ((r - c) * t)) K (sigma * sqrt t)))).
  { intros K K0. eapply solves_ext; [|exact (solves_digital (ln K))]. intros t x T X. cbn. now rewrite d2_h. }
  assert (C2 : forall K, 0 < K -> solves (fun t x => x * exp (- c * t) * Phi (black_d1 (x * exp ((r - c) * t)) K (sigma * sqrt t)))).
  { intros K K0. eapply solves_ext; [|exact (solves_asset (ln K))]. intros t x T X. cbn. now rewrite d1_h. }
  assert (CE : forall t x, exp (- r * t) * (x * exp ((r - c) * t)) = x * exp (- c * t)).
  { intros t x. replace (- c * t) with (- r * t + (r - c) * t) by ring. rewrite exp_plus. ring. }
  assert (Pv : forall K, 0 < K -> solves (fun t x => exp (- r * t) * black_put (x * exp ((r - c) * t)) K (sigma * sqrt t))).
  { intros K PS. eapply solves_ext; [|exact (solves_lin _ _ 1 1 (solves_lin _ _ (- 1) K solves_stock solves_cash) (solves_lin _ _ 1 (- K) (C2 K PS) (C1 K PS)))].
    intros t x T X. cbn beta. unfold black_put. rewrite !Phi_opp, <- CE. ring. }
  assert (Pd : forall K, 0 < K -> solves (fun t x => exp (- r * t) * Phi (- black_d2 (x * exp ((r - c) * t)) K (sigma * sqrt t)))).
  { intros K PS. eapply solves_ext; [|exact (solves_lin _ _ 1 (- 1) solves_cash (C1 K PS))]. intros t x T X. cbn beta. rewrite Phi_opp. ring. }
  intros pay PS. destruct pay as [[| |] K|[| |] K|KL KU|ty]; [| | | | | | |destruct PS].
  - eapply solves_ext; [|exact (solves_lin _ _ 1 (- K) (C2 K PS) (C1 K PS))]. intros t x T X. unfold value, bs_value. cbn [lognormal_payoff].
    unfold black_call. rewrite <- CE. ring.
  - exact (Pv K PS).
  - exact (Pv K PS).
  - exact (C1 K PS).
  - exact (Pd K PS).
  - exact (Pd K PS).
  - destruct PS as [P1 P2]. unfold value, bs_value. cbn [lognormal_payoff]. destruct (Rle_dec KL KU).
    + eapply solves_ext; [|exact (solves_lin _ _ 1 (- 1) (C1 KL P1) (C1 KU P2))]. intros t x T X. cbn beta. ring.
    + eapply solves_ext; [|exact (solves_lin _ _ 0 0 solves_cash solves_cash)]. intros t x T X. cbn beta. ring.
Qed.
End Equation.

(** ** The limit at maturity *)
Definition tends (f : R -> R) (l : R) : Prop := filterlim f (at_right 0) (locally l).
Lemma tends_cont : forall (f : R -> R), continuous f 0 -> tends f (f 0).
Proof. intros f C. eapply filterlim_filter_le_1; [apply filter_le_within|exact C]. Qed.
Lemma tends_const : forall a, tends (fun _ => a) a.
Proof. intros a. apply filterlim_const. Qed.
Lemma tends_plus : forall f g a b, tends f a -> tends g b -> tends (fun t => f t + g t) (a + b).
Proof. intros f g a b F G. eapply filterlim_comp_2; [exact F|exact G|]. apply (@filterlim_plus R_AbsRing R_NormedModule). Qed.
Lemma tends_mult : forall f g a b, tends f a -> tends g b -> tends (fun t => f t * g t) (a * b).
Proof. intros f g a b F G. eapply filterlim_comp_2; [exact F|exact G|]. apply (@filterlim_mult R_AbsRing). Qed.
Lemma tends_lin : forall f g a b p q, tends f a -> tends g b -> tends (fun t => p * f t + q * g t) (p * a + q * b).
Proof. intros. apply tends_plus; apply tends_mult; try apply tends_const; easy. Qed.
Lemma tends_ext : forall f g a, (forall t, 0 < t -> f t = g t) -> tends f a -> tends g a.
Proof.
  intros f g a E F. eapply filterlim_ext_loc; [|exact F]. exists (mkposreal 1 Rlt_0_1). intros t _ T. now apply E.
Qed.
Lemma tends_eps : forall f l, (forall eps, 0 < eps -> exists del, 0 < del /\ forall t, 0 < t < del -> Rabs (f t - l) < eps) <-> tends f l.
Proof.
  intros f l. split.
  - intros H P [e HP]. destruct (H e (cond_pos e)) as (del & D & HD). exists (mkposreal del D). intros t B T. apply HP.
    apply HD. unfold ball in B; cbn in B. unfold AbsRing_ball, abs, minus, plus, opp in B; cbn in B. apply Rabs_def2 in B. lra.
  - intros H eps E. destruct (H (fun y => Rabs (y - l) < eps)) as [d D].
    { exists (mkposreal eps E). intros y Y. exact Y. }
    exists d. split; [apply cond_pos|]. intros t [T1 T2]. apply D; [|exact T1].
    unfold ball; cbn. unfold AbsRing_ball, abs, minus, plus, opp; cbn. apply Rabs_def1; lra.
Qed.

Section Limits.
Variable sigma : R.
Hypothesis sigma0 : 0 < sigma.
Lemma tends_one : forall a m, 0 < a -> tends (fun t => Phi ((a + m * t) / (sigma * sqrt t))) 1.
Proof.
  intros a m A0. apply tends_eps. intros eps E. destruct (PF_lim eps E) as (A & AP & HA).
  set (d1 := a / (2 * (Rabs m + 1))). set (q := a / (2 * sigma * A)).
  assert (M : 0 <= Rabs m) by apply Rabs_pos.
  assert (D1 : 0 < d1) by (apply Rdiv_lt_0_compat; lra).
  assert (Q : 0 < q) by (apply Rdiv_lt_0_compat; nra).
  exists (Rmin d1 (q * q)). split; [apply Rmin_glb_lt; nra|]. intros t [T1 T2].
  assert (T3 : t < d1) by (eapply Rlt_le_trans; [exact T2|apply Rmin_l]).
  assert (T4 : t < q * q) by (eapply Rlt_le_trans; [exact T2|apply Rmin_r]).
  assert (P : 0 < sqrt t) by (now apply sqrt_lt_R0).
  assert (P2 : sqrt t < q). { rewrite <- (sqrt_square q) by lra. apply sqrt_lt_1; nra. }
  assert (B1 : sigma * sqrt t * A < a / 2).
  { replace (a / 2) with (sigma * q * A) by (unfold q; field; lra). assert (sigma * sqrt t < sigma * q) by nra. nra. }
  assert (B2 : - (a / 2) < m * t).
  { assert (- (Rabs m) * t <= m * t). { apply Rmult_le_compat_r; [lra|]. pose proof (Rle_abs (- m)). rewrite Rabs_Ropp in H. lra. }
    assert ((Rabs m + 1) * t < a / 2). { replace (a / 2) with ((Rabs m + 1) * d1) by (unfold d1; field; lra). nra. } nra. }
  rewrite Phi_PF. replace (1 / 2 + PF ((a + m * t) / (sigma * sqrt t)) - 1) with (PF ((a + m * t) / (sigma * sqrt t)) - 1 / 2) by field.
  apply HA. apply Rmult_lt_reg_r with (sigma * sqrt t); [nra|]. unfold Rdiv at 1. rewrite Rmult_assoc, Rinv_l by nra. nra.
Qed.
Lemma tends_zero : forall a m, a < 0 -> tends (fun t => Phi ((a + m * t) / (sigma * sqrt t))) 0.
Proof.
  intros a m A0. eapply tends_ext; [|replace 0 with (1 * 1 + - 1 * 1) by ring; exact (tends_lin _ _ 1 1 1 (- 1) (tends_const 1) (tends_one (- a) (- m) ltac:(lra)))].
  intros t T. cbn beta. assert (0 < sqrt t) by (now apply sqrt_lt_R0).
  replace ((- a + - m * t) / (sigma * sqrt t)) with (- ((a + m * t) / (sigma * sqrt t))) by (field; lra). rewrite Phi_opp. ring.
Qed.
Lemma Phi_cont : forall x, continuous Phi x.
Proof. intros x. apply @ex_derive_continuous. exists (phi x). apply Phi_derive. Qed.
Lemma Phi_0 : Phi 0 = 1 / 2.
Proof. rewrite Phi_PF, PF_0. ring. Qed.
Lemma tends_half : forall m, tends (fun t => Phi ((0 + m * t) / (sigma * sqrt t))) (1 / 2).
Proof.
  intros m. apply tends_ext with (fun t => Phi (m / sigma * sqrt t)).
  { intros t T. assert (0 < sqrt t) by (now apply sqrt_lt_R0). f_equal. rewrite <- (sqrt_sqrt t) at 2 by lra. field. lra. }
  replace (1 / 2) with (Phi (m / sigma * sqrt 0)) by (rewrite sqrt_0, Rmult_0_r; apply Phi_0).
  apply (tends_cont (fun t => Phi (m / sigma * sqrt t))).
  apply (continuous_comp (fun t => m / sigma * sqrt t) Phi); [|apply Phi_cont].
  apply (continuous_scal_r (m / sigma) sqrt). apply continuous_sqrt.
Qed.

(** The digital call ends at 1 above the strike, 0 below and 1/2 on it. *)
Definition step (K x : R) : R := if Rlt_dec K x then 1 else if Rlt_dec x K then 0 else 1 / 2.
Lemma tends_step : forall K m x, 0 < K -> 0 < x -> tends (fun t => Phi (h sigma (ln K) m t x)) (step K x).
Proof.
  intros K m x K0 X. unfold h, step. destruct (Rlt_dec K x) as [G|G]; [|destruct (Rlt_dec x K) as [G'|G']].
  - apply tends_one. pose proof (ln_increasing _ _ K0 G). lra.
  - apply tends_zero. pose proof (ln_increasing _ _ X G'). lra.
  - replace x with K by lra. replace (ln K - ln K) with 0 by ring. apply tends_half.
Qed.
End Limits.

Section Start.
Variables (sigma r c : R).
Hypothesis sigma0 : 0 < sigma.
Lemma tends_exp : forall a, tends (fun t => exp (a * t)) 1.
Proof.
  intros a. replace 1 with (exp (a * 0)) by (rewrite Rmult_0_r; apply exp_0). apply (tends_cont (fun t => exp (a * t))).
  apply @ex_derive_continuous. auto_derive. easy.
Qed.
Lemma value_starts : forall pay x, positive_strikes pay -> off_jump pay x -> 0 < x ->
  tends (fun t => bs_value sigma r c pay t x) (terminal pay x).
Proof.
  intros pay x PS OJ X. set (D := fun K t => exp (- r * t) * Phi (black_d2 (x * exp ((r - c) * t)) K (sigma * sqrt t))).
  set (A := fun K t => x * exp (- c * t) * Phi (black_d1 (x * exp ((r - c) * t)) K (sigma * sqrt t))).
  assert (HD : forall K, 0 < K -> tends (D K) (step K x)).
  { intros K K0. rewrite <- (Rmult_1_l (step K x)). apply tends_ext with (fun t => exp (- r * t) * Phi (h sigma (ln K) (r - c - sigma * sigma / 2) t x)).
    - intros t T. unfold D. now rewrite d2_h.
    - apply tends_mult; [apply tends_exp|now apply tends_step]. }
  assert (HS : tends (fun t => x * exp (- c * t)) x).
  { pose proof (tends_mult (fun _ => x) _ x 1 (tends_const x) (tends_exp (- c))) as H. rewrite Rmult_1_r in H. exact H. }
  assert (HA : forall K, 0 < K -> tends (A K) (x * step K x)).
  { intros K K0. apply tends_ext with (fun t => x * exp (- c * t) * Phi (h sigma (ln K) (r - c + sigma * sigma / 2) t x)).
    - intros t T. unfold A. now rewrite d1_h.
    - apply tends_mult; [exact HS|now apply tends_step]. }
  assert (HC : tends (fun t => exp (- r * t)) 1) by apply tends_exp.
  assert (CE : forall t, exp (- r * t) * (x * exp ((r - c) * t)) = x * exp (- c * t)).
  { intros t. replace (- c * t) with (- r * t + (r - c) * t) by ring. rewrite exp_plus. ring. }
  assert (VC : forall K, 0 < K -> tends (fun t => exp (- r * t) * black_call (x * exp ((r - c) * t)) K (sigma * sqrt t)) (Rmax (x - K) 0)).
  { intros K K0. replace (Rmax (x - K) 0) with (1 * (x * step K x) + - K * step K x).
    - eapply tends_ext; [|exact (tends_lin _ _ _ _ 1 (- K) (HA K K0) (HD K K0))]. intros t T. cbn beta. unfold A, D, black_call. rewrite <- CE. ring.
    - unfold step, Rmax. destruct (Rlt_dec K x), (Rlt_dec x K), (Rle_dec (x - K) 0); nra. }
  assert (VP : forall K, 0 < K -> tends (fun t => exp (- r * t) * black_put (x * exp ((r - c) * t)) K (sigma * sqrt t)) (Rmax (K - x) 0)).
  { intros K K0. replace (Rmax (K - x) 0) with (1 * (- 1 * x + K * 1) + 1 * (1 * (x * step K x) + - K * step K x)).
    - eapply tends_ext; [|exact (tends_lin _ _ _ _ 1 1 (tends_lin _ _ _ _ (- 1) K HS HC) (tends_lin _ _ _ _ 1 (- K) (HA K K0) (HD K K0)))].
      intros t T. cbn beta. unfold A, D, black_put. rewrite !Phi_opp, <- CE. ring.
    - unfold step, Rmax. destruct (Rlt_dec K x), (Rlt_dec x K), (Rle_dec (K - x) 0); nra. }
  assert (DP : forall K, 0 < K -> x <> K -> tends (fun t => exp (- r * t) * Phi (- black_d2 (x * exp ((r - c) * t)) K (sigma * sqrt t))) (if Rlt_dec x K then 1 else 0)).
  { intros K K0 N. replace (if Rlt_dec x K then 1 else 0) with (1 * 1 + - 1 * step K x).
    - eapply tends_ext; [|exact (tends_lin _ _ _ _ 1 (- 1) HC (HD K K0))]. intros t T. cbn beta. unfold D. rewrite Phi_opp. ring.
    - unfold step. destruct (Rlt_dec K x), (Rlt_dec x K); lra. }
  unfold bs_value. destruct pay as [[| |] K|[| |] K|KL KU|ty]; [| | | | | | |destruct PS]; cbn [lognormal_payoff terminal vanilla]; cbn in PS, OJ.
  - now apply VC.
  - now apply VP.
  - now apply VP.
  - replace (if Rlt_dec K x then 1 else 0) with (step K x); [now apply HD|]. unfold step. destruct (Rlt_dec K x), (Rlt_dec x K); lra.
  - now apply DP.
  - now apply DP.
  - destruct PS as [P1 P2], OJ as [O1 O2]. destruct (Rle_dec KL KU).
    + replace (if Rle_dec KL x then if Rle_dec x KU then 1 else 0 else 0) with (1 * step KL x + - 1 * step KU x).
      * eapply tends_ext; [|exact (tends_lin _ _ _ _ 1 (- 1) (HD KL P1) (HD KU P2))]. intros t T. cbn beta. unfold D. ring.
      * unfold step. destruct (Rlt_dec KL x), (Rlt_dec x KL), (Rlt_dec KU x), (Rlt_dec x KU), (Rle_dec KL x), (Rle_dec x KU); lra.
    + replace (if Rle_dec KL x then if Rle_dec x KU then 1 else 0 else 0) with (0 : R).
      * eapply tends_ext; [|exact (tends_const 0)]. intros t T. cbn beta. ring.
      * destruct (Rle_dec KL x), (Rle_dec x KU); lra.
Qed.

(** On the strike a digital call is worth 1/2 just before maturity. *)
Lemma digital_starts : forall K, 0 < K -> tends (fun t => bs_value sigma r c (PDigital Call K) t K) (1 / 2).
Proof.
  intros K K0. rewrite <- (Rmult_1_l (1 / 2)). apply tends_ext with (fun t => exp (- r * t) * Phi (h sigma (ln K) (r - c - sigma * sigma / 2) t K)).
  - intros t T. unfold bs_value. cbn [lognormal_payoff]. now rewrite d2_h.
  - apply tends_mult; [apply tends_exp|]. replace (1 / 2) with (step K K) by (unfold step; destruct (Rlt_dec K K); lra).
    now apply tends_step.
Qed.
End Start.
