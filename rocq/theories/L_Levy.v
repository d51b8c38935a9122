(** Joint moments of the paths of the models with independent increments. *)
From Coq Require Import List ZArith Reals Bool Lra Lia.
From Coquelicot Require Import Coquelicot.
From Verif Require Import M_Num M_Outcome M_Stock M_Market M_Random M_Model
  S_Model S_Prob S_Expect S_Bridge S_Levy L_Gauss L_Martingale L_Expect L_Sampler L_Growth L_Bridge.
Import ListNotations.
Local Open Scope R_scope.

(** A step that multiplies E S^u by e(u), in front of any continuation. *)
Definition levy_step (step : R -> sampler R) (dom : R -> Prop) (e : R -> R) : Prop :=
  forall S u C A (K : R -> sampler A) f, dom u -> 0 < S ->
  (forall y, 0 < y -> is_E (K y) f (C * exp (u * ln y))) ->
  is_E (pbind (step S) K) f (C * exp (u * ln S + e u)).

Section Walk.
Variables (a : nat -> R) (step : R -> sampler R) (dom : R -> Prop) (e : R -> R).
Hypothesis H : levy_step step dom e.
Fixpoint esum (k n : nat) : R := match n with O => 0 | S n' => e (wsum a k n) + esum (S k) n' end.

Lemma walk_moment : forall n S l, 0 < S -> (forall j, (j < n)%nat -> dom (wsum a (length l + j) (n - j))) ->
  is_E (piter n (record (fun S : R => S) step) (S, l)) (fun st => powers a 0 (snd st))
    (powers a 0 l * exp (wsum a (length l) n * ln S + esum (length l) n)).
Proof.
  induction n as [|n IH]; intros S l S0 D.
  - cbn. rewrite Rmult_0_l, Rplus_0_r, exp_0. ring.
  - cbn [piter]. unfold record at 1. cbn [fst snd]. apply E_assoc.
    set (w := wsum a (length l) (Datatypes.S n)).
    replace (powers a 0 l * exp (w * ln S + esum (length l) (Datatypes.S n)))
      with (powers a 0 l * exp (esum (Datatypes.S (length l)) n) * exp (w * ln S + e w)).
    2:{ rewrite Rmult_assoc, <- exp_plus. f_equal. f_equal. cbn [esum]. fold w. ring. }
    apply H; [|easy|].
    + specialize (D 0%nat ltac:(lia)). rewrite Nat.add_0_r, Nat.sub_0_r in D. exact D.
    + intros y Y. cbn [pbind].
      assert (LEN : length (l ++ [y]) = Datatypes.S (length l)) by (rewrite app_length; cbn; lia).
      pose proof (IH y (l ++ [y]) Y) as E. rewrite LEN, powers_app in E.
      match goal with |- is_E _ _ ?m => match type of E with _ -> is_E _ _ ?m' => replace m with m'; [apply E|] end end.
      * intros j J. specialize (D (Datatypes.S j) ltac:(lia)). rewrite Nat.add_succ_r in D. exact D.
      * rewrite !Rmult_assoc, <- !exp_plus. f_equal. f_equal. unfold w. cbn [wsum Nat.add]. ring.
Qed.
End Walk.

Lemma wsum_tail : forall a n k j, (j <= n)%nat -> wsum a (k + j) (n - j) = wsum a k n - wsum a k j.
Proof.
  intros a n k j. revert n k. induction j as [|j IH]; intros n k J.
  - rewrite Nat.add_0_r, Nat.sub_0_r. cbn. ring.
  - destruct n as [|n]; [lia|]. cbn [wsum Nat.sub]. rewrite Nat.add_succ_r, <- Nat.add_succ_l, IH by lia. ring.
Qed.
Lemma wsum_tail0 : forall a n j, (j <= n)%nat -> wsum a j (n - j) = tail_sum a n j.
Proof. intros a n j J. pose proof (wsum_tail a n 0 j J) as E. cbn [Nat.add] in E. now rewrite !wsum_all in E. Qed.
Lemma esum_shift : forall a e m k n, (k + n = m)%nat ->
  esum a e k n = sum_to m (fun j => e (tail_sum a m j)) - sum_to k (fun j => e (tail_sum a m j)).
Proof.
  intros a e m k n. revert k. induction n as [|n IH]; intros k K.
  - replace m with k by lia. cbn. ring.
  - cbn [esum]. rewrite (IH (S k)) by lia. cbn [sum_to].
    replace (S n) with (m - k)%nat by lia. rewrite wsum_tail0 by lia. ring.
Qed.
Lemma esum_all : forall a e n, esum a e 0 n = sum_to n (fun j => e (tail_sum a n j)).
Proof. intros a e n. rewrite (esum_shift a e n 0 n) by lia. cbn. ring. Qed.

(** A loop over the dates. *)
Lemma E_levy : forall n step dom psi h S a, (n <= INT_MAX)%Z -> 0 < S ->
  levy_step step dom (fun u => h * psi u) ->
  (forall j, (j < Z.to_nat n)%nat -> dom (tail_sum a (Z.to_nat n) j)) ->
  is_E (pbind (pfor_int n (record (fun S => S) step) (S, [])) (fun st => Done (Ok (snd st)))) (powers a 0)
    (levy_moment S h psi a (Z.to_nat n)).
Proof.
  intros n step dom psi h S a N S0 H D. apply (E_map _ snd). unfold pfor_int. destruct (Z.leb_spec n INT_MAX) as [_|]; [|lia].
  pose proof (walk_moment a step dom _ H (Z.to_nat n) S [] S0) as E. cbn [length powers Nat.add] in E.
  rewrite Rmult_1_l, wsum_all, esum_all, sum_scal in E. apply E.
  intros j J. rewrite wsum_tail0 by lia. now apply D.
Qed.

(** ** One step of each model *)
Section Steps.
Variables (d : StockData R) (r t : R) (n : Z).
Let dt := t / IZR n.
Hypothesis dt0 : 0 <= dt.
Let sigma := getSigma d.

Lemma pow_next : forall u S x, 0 < S -> exp (u * ln (S * exp x)) = exp (u * ln S) * exp (u * x).
Proof. intros u S x H. rewrite ln_mult, ln_exp, <- exp_plus by (try apply exp_pos; easy). f_equal. ring. Qed.

(** A normal draw, then a sampler [J] of the jumps whose exponentials have the mean [M]. *)
Lemma normal_then : forall {A} u S C mu (J : sampler R) M (K : R -> sampler A) f, 0 < S ->
  is_E J (fun js => exp (u * js)) M ->
  (forall y, 0 < y -> is_E (K y) f (C * exp (u * ln y))) ->
  is_E (pbind (pdraw (SNormal 0 1)) (fun z => pbind J (fun js => K (S * exp (mu + sigma * sqrt dt * z + js))))) f
    (C * exp (u * ln S) * M * exp (u * mu + sigma * sigma * (u * u) / 2 * dt)).
Proof.
  intros A u S C mu J M K f S0 EJ EK. set (b := sigma * sqrt dt).
  assert (BB : b * b = sigma * sigma * dt) by (unfold b; pose proof (sqrt_sqrt dt dt0); nra).
  apply (E_bind _ _ _ (fun z => C * exp (u * ln S) * M * exp (u * mu + u * b * z))).
  - replace (u * mu + sigma * sigma * (u * u) / 2 * dt) with (u * mu + u * b * (u * b) / 2) by nra. apply E_normal.
  - intros z. apply (E_bind _ _ _ (fun js => C * exp (u * ln S) * exp (u * mu + u * b * z) * exp (u * js))).
    + replace (C * exp (u * ln S) * M * exp (u * mu + u * b * z)) with (C * exp (u * ln S) * exp (u * mu + u * b * z) * M) by ring.
      now apply E_scal.
    + intros js. assert (Y : 0 < S * exp (mu + b * z + js)) by (apply Rmult_lt_0_compat; [easy|apply exp_pos]).
      replace (C * exp (u * ln S) * exp (u * mu + u * b * z) * exp (u * js)) with (C * exp (u * ln (S * exp (mu + b * z + js)))); [now apply EK|].
      rewrite pow_next by easy. rewrite !Rmult_assoc, <- !exp_plus. f_equal. f_equal. ring.
Qed.

Lemma gbm_levy : levy_step (gbm_step d r t n) (fun _ => True)
  (fun u => dt * brownian_exponent (r - dividend d - sigma * sigma / 2) sigma u).
Proof.
  intros S u C A K f _ S0 EK. unfold gbm_step. fold dt. apply E_assoc.
  pose proof (normal_then u S C ((r - coupon d - nhalf * sigma * sigma) * dt) (Done (Ok 0)) 1 K f S0) as E. cbn [is_E] in E.
  rewrite Rmult_0_r in E. specialize (E exp_0 EK).
  match goal with |- is_E _ _ ?m => match type of E with is_E _ _ ?m' => replace m with m' end end.
  - destruct E as (h & E & L). exists h. split; [|exact L]. intros z Z. specialize (E z Z). cbn [pbind] in *.
    rewrite Rplus_0_r in E. exact E.
  - rewrite half_R, coupon_dividend. unfold brownian_exponent. rewrite Rmult_1_r, Rmult_assoc, <- exp_plus. f_equal. f_equal. field.
Qed.

Lemma jumps : forall u l (body : R -> sampler R) M, (forall y, is_E (body y) (fun js => exp (u * js)) (M * exp (u * y))) ->
  is_E (pbind (pcount l) (fun k => piter (Z.to_nat k) body 0)) (fun js => exp (u * js)) (exp (l * (M - 1))).
Proof.
  intros u l body M H. replace (exp (l * (M - 1))) with (1 * exp (l * (M - 1))) by ring.
  apply E_count. intros k. rewrite Nat2Z.id, Rmult_1_l.
  pose proof (E_piter (fun js => exp (u * js)) body M H k 0) as E. cbv beta in E. now rewrite Rmult_0_r, exp_0, Rmult_1_r in E.
Qed.

Lemma with_jumps : forall {A} u S C mu l (body : R -> sampler R) M (K : R -> sampler A) f, 0 < S ->
  (forall y, is_E (body y) (fun js => exp (u * js)) (M * exp (u * y))) ->
  (forall y, 0 < y -> is_E (K y) f (C * exp (u * ln y))) ->
  is_E (pbind (pbind (pdraw (SNormal 0 1)) (fun z => pbind (pcount l) (fun k => pbind (piter (Z.to_nat k) body 0) (fun js =>
    Done (Ok (S * exp (mu + sigma * sqrt dt * z + js))))))) K) f
    (C * exp (u * ln S) * exp (l * (M - 1)) * exp (u * mu + sigma * sigma * (u * u) / 2 * dt)).
Proof.
  intros A u S C mu l body M K f S0 HB EK.
  pose proof (normal_then u S C mu _ _ K f S0 (jumps u l body M HB) EK) as E.
  destruct E as (h & E & L). exists h. split; [|exact L]. intros z Z. specialize (E z Z). cbn [pbind] in *.
  destruct E as (h' & E & L'). exists h'. split; [|exact L']. intros k. specialize (E k). cbn [pbind] in *.
  apply E_assoc. exact E.
Qed.

Lemma merton_levy : forall lambda muJ sigmaJ,
  levy_step (merton_step d r t n lambda muJ sigmaJ) (fun _ => True)
    (fun u => dt * (brownian_exponent (r - dividend d - sigma * sigma / 2) sigma u + jump_exponent lambda (normal_jump muJ sigmaJ) u)).
Proof.
  intros lambda muJ sigmaJ S u C A K f _ S0 EK. unfold merton_step. fold dt.
  pose proof (with_jumps u S C ((r - coupon d - nhalf * sigma * sigma) * dt) (lambda * dt)
    (fun js => pbind (pdraw (SNormal muJ sigmaJ)) (fun j => Done (Ok (js + j)))) (normal_jump muJ sigmaJ u) K f S0) as E.
  match goal with |- is_E _ _ ?m => match type of E with _ -> _ -> is_E _ _ ?m' => replace m with m'; [apply E; [|exact EK]|] end end.
  - intros y. apply E_map. apply E_draw. cbn.
    replace (normal_jump muJ sigmaJ u * exp (u * y)) with (exp (u * y) * exp (u * muJ + u * sigmaJ * (u * sigmaJ) / 2)).
    2:{ unfold normal_jump. rewrite <- !exp_plus. f_equal. field. }
    pose proof (E_normal (exp (u * y)) (u * muJ) (u * sigmaJ)) as E1. destruct E1 as (h & H1 & L). cbn in L.
    eapply is_Enormal_ext; [|exact L]. intros z. cbn. rewrite <- (H1 (0 + 1 * z) I), <- exp_plus. f_equal. ring.
  - rewrite half_R, coupon_dividend. unfold brownian_exponent, jump_exponent. rewrite !Rmult_assoc, <- !exp_plus. f_equal. f_equal. field.
Qed.

(** The jump of the code: a downward one, and with probability p an upward one on top. *)
Definition kou_coded (p eta1 eta2 u : R) : R := (p * (eta1 / (eta1 - u)) + (1 - p)) * (eta2 / (eta2 + u)).
Definition kou_dom (eta1 eta2 u : R) : Prop := - eta2 < u < eta1.

Lemma E_exponential : forall C eta c, c < eta ->
  is_E (pdraw (SExponential eta)) (fun x => C * exp (c * x)) (C * (eta / (eta - c))).
Proof.
  intros C eta c H. apply E_draw. cbn. pose proof (integral_pos_exp (C * eta) (eta - c) ltac:(lra)) as I.
  replace (C * (eta / (eta - c))) with (C * eta / (eta - c)) by (field; lra).
  eapply integral_pos_ext; [|exact I]. intros x _. cbn. replace (- ((eta - c) * x)) with (c * x + - (eta * x)) by ring. rewrite exp_plus. ring.
Qed.

Lemma kou_levy : forall lambda p eta1 eta2 muJ, 0 <= p <= 1 ->
  levy_step (kou_step d r t n lambda p eta1 eta2 muJ) (kou_dom eta1 eta2)
    (fun u => dt * (brownian_exponent (r - dividend d - sigma * sigma / 2 - lambda * (muJ - 1)) sigma u +
                    jump_exponent lambda (kou_coded p eta1 eta2) u)).
Proof.
  intros lambda p eta1 eta2 muJ P S u C A K f [U1 U2] S0 EK. unfold kou_step. fold dt.
  pose proof (with_jumps u S C ((r - coupon d - nhalf * sigma * sigma - lambda * (muJ - 1)) * dt) (lambda * dt)
    (kou_jump_sampler p eta1 eta2) (kou_coded p eta1 eta2 u) K f S0) as E.
  match goal with |- is_E _ _ ?m => match type of E with _ -> _ -> is_E _ _ ?m' => replace m with m'; [apply E; [|exact EK]|] end end.
  - intros js. unfold kou_jump_sampler. set (q := eta2 / (eta2 + u)).
    apply (E_bind _ _ _ (fun U => if nltb U p then exp (u * js) * q * (eta1 / (eta1 - u)) else exp (u * js) * q)).
    + replace (kou_coded p eta1 eta2 u * exp (u * js)) with (p * (exp (u * js) * q * (eta1 / (eta1 - u))) + (1 - p) * (exp (u * js) * q))
        by (unfold kou_coded; fold q; ring).
      now apply E_uniform.
    + intros U. apply (E_bind _ _ _ (fun y => q * exp (u * y))).
      * destruct (nltb U p).
        -- apply E_map. replace (exp (u * js) * q * (eta1 / (eta1 - u))) with (q * exp (u * js) * (eta1 / (eta1 - u))) by ring.
           eapply E_ext; [|apply E_exponential; exact U2]. intros x. cbn. rewrite Rmult_assoc, <- exp_plus. f_equal. f_equal. ring.
        -- cbn. ring.
      * intros y. apply E_map. unfold q. replace (eta2 / (eta2 + u) * exp (u * y)) with (exp (u * y) * (eta2 / (eta2 - - u))) by (unfold Rminus; rewrite Ropp_involutive; ring).
        eapply E_ext; [|apply E_exponential; lra]. intros x. cbn. rewrite <- exp_plus. f_equal. ring.
  - rewrite half_R, coupon_dividend. unfold brownian_exponent, jump_exponent. rewrite !Rmult_assoc, <- !exp_plus. f_equal. f_equal. field.
Qed.

(** The clock of the code has the scale 1/nu. *)
Definition vg_coded (nu theta u : R) : R := - (ln (1 - clock_arg theta sigma u / nu) / nu).

Lemma vg_levy : forall nu theta omega, 0 < dt -> 0 < nu ->
  levy_step (vg_step d r t n nu theta omega) (fun u => clock_arg theta sigma u < nu)
    (fun u => dt * ((r - dividend d + omega) * u + vg_coded nu theta u)).
Proof.
  intros nu theta omega D0 N S u C A K f B S0 EK. unfold vg_step. fold dt. set (b := clock_arg theta sigma u) in *.
  set (m := (r - coupon d + omega) * dt).
  assert (Q : b * (1 / nu) < 1) by (apply (Rmult_lt_reg_r nu); [easy|]; replace (b * (1 / nu) * nu) with b by (field; lra); lra).
  replace (C * exp (u * ln S + dt * ((r - dividend d + omega) * u + vg_coded nu theta u)))
    with (C * exp (u * ln S + u * m) * Rpower (1 - b * (1 / nu)) (- (dt / nu))).
  2:{ unfold Rpower, m. rewrite coupon_dividend, Rmult_assoc, <- exp_plus. f_equal. f_equal. unfold vg_coded. fold b.
      replace (b / nu) with (b * (1 / nu)) by (field; lra). field. lra. }
  exists (fun g => C * exp (u * ln S + u * m) * exp (b * g)). split.
  2:{ apply gamma_exp; [now apply Rdiv_lt_0_compat|apply Rdiv_lt_0_compat; lra|exact Q]. }
  intros g G. cbn in G. assert (G2 : sqrt g * sqrt g = g) by (apply sqrt_sqrt; lra). cbn [pbind]. fold sigma.
  exists (fun z => C * exp (u * ln S + u * m) * exp (u * theta * g + u * sigma * sqrt g * z)). split.
  - intros z _. cbn [pbind].
    assert (Y : 0 < S * exp (m + (theta * g + sigma * sqrt g * z))) by (apply Rmult_lt_0_compat; [easy|apply exp_pos]).
    pose proof (EK _ Y) as E. rewrite pow_next in E by easy.
    match goal with |- is_E _ _ ?x => match type of E with is_E _ _ ?x' => replace x with x'; [exact E|] end end.
    rewrite !Rmult_assoc, <- !exp_plus. f_equal. f_equal. ring.
  - pose proof (E_normal (C * exp (u * ln S + u * m)) (u * theta * g) (u * sigma * sqrt g)) as E. destruct E as (h & H1 & L). cbn in L.
    assert (L' : is_Enormal (fun z => h (0 + 1 * z)) (C * exp (u * ln S + u * m) * exp (b * g))).
    { match type of L with is_Enormal _ ?x => replace (C * exp (u * ln S + u * m) * exp (b * g)) with x; [exact L|] end.
      f_equal. f_equal. unfold b, clock_arg. replace (u * sigma * sqrt g * (u * sigma * sqrt g)) with (u * u * (sigma * sigma) * (sqrt g * sqrt g)) by ring.
      rewrite G2. field. }
    cbn. eapply is_Enormal_ext; [|exact L']. intros z. cbn. rewrite <- (H1 (0 + 1 * z) I). reflexivity.
Qed.
End Steps.
