(** Joint moments of forward and of backward GBM paths. *)
From Coq Require Import List ZArith Reals Bool Lra Lia.
From Coquelicot Require Import Coquelicot.
From Verif Require Import M_Num M_Outcome M_Stock M_Market M_Random M_Model
  S_Model S_Prob S_Expect S_Bridge L_Gauss L_Martingale L_Expect L_Sampler L_Growth L_Normal L_Lognormal.
Import ListNotations.
Local Open Scope R_scope.

(** ** Sums *)
Lemma sum_ext : forall n f g, (forall i, (i < n)%nat -> f i = g i) -> sum_to n f = sum_to n g.
Proof. intros n f g. induction n as [|n IH]; intros H; cbn; [easy|]. rewrite IH by (intros; apply H; lia). rewrite H by lia. reflexivity. Qed.
Lemma sum_plus : forall n f g, sum_to n (fun i => f i + g i) = sum_to n f + sum_to n g.
Proof. intros n f g. induction n as [|n IH]; cbn; [ring|]. rewrite IH. ring. Qed.
Lemma sum_scal : forall n c f, sum_to n (fun i => c * f i) = c * sum_to n f.
Proof. intros n c f. induction n as [|n IH]; cbn; [ring|]. rewrite IH. ring. Qed.

Section Weights.
Variable a : nat -> R.

(** Variance of the weighted sum of a random walk, one date at a time. *)
Fixpoint vwalk (n : nat) : R :=
  match n with O => 0 | S n' => vwalk n' + 2 * a n' * sum_to n' (fun i => a i * INR (S i)) + INR n * (a n' * a n') end.

Lemma vwalk_cov : forall n, sum_to n (fun i => sum_to n (fun j => a i * a j * Rmin (INR (S i)) (INR (S j)))) = vwalk n.
Proof.
  induction n as [|n IH]; [reflexivity|]. cbn [sum_to].
  rewrite (sum_ext n _ (fun i => sum_to n (fun j => a i * a j * Rmin (INR (S i)) (INR (S j))) + a n * (a i * INR (S i)))).
  2:{ intros i I. rewrite (Rmin_left (INR (S i)) (INR (S n))) by (apply le_INR; lia). ring. }
  rewrite sum_plus, IH, sum_scal.
  rewrite (sum_ext n (fun j => a n * a j * Rmin (INR (S n)) (INR (S j))) (fun j => a n * (a j * INR (S j)))).
  2:{ intros j J. rewrite (Rmin_right (INR (S n)) (INR (S j))) by (apply le_INR; lia). ring. }
  rewrite sum_scal, Rmin_left by lra. cbn [vwalk]. ring.
Qed.

(** Forwards: the weights of the dates k, ..., k+n-1 and what the n draws contribute. *)
Fixpoint wsum (k n : nat) : R := match n with O => 0 | S n' => a k + wsum (S k) n' end.
Fixpoint dsum (k n : nat) : R := match n with O => 0 | S n' => wsum k n + dsum (S k) n' end.
Fixpoint qsum (k n : nat) : R := match n with O => 0 | S n' => wsum k n * wsum k n + qsum (S k) n' end.
Lemma wsum_end : forall n k, wsum k (S n) = wsum k n + a (k + n)%nat.
Proof.
  induction n as [|n IH]; intros k; [cbn; rewrite Nat.add_0_r; ring|].
  change (wsum k (S (S n))) with (a k + wsum (S k) (S n)). rewrite IH. cbn [wsum]. rewrite Nat.add_succ_comm. ring.
Qed.
Lemma dsum_end : forall n k, dsum k (S n) = dsum k n + a (k + n)%nat * INR (S n).
Proof.
  induction n as [|n IH]; intros k; [cbn; rewrite Nat.add_0_r; ring|].
  change (dsum k (S (S n))) with (wsum k (S (S n)) + dsum (S k) (S n)). rewrite IH, wsum_end. cbn [dsum]. rewrite Nat.add_succ_comm, (S_INR (S n)). ring.
Qed.
Lemma qsum_end : forall n k, qsum k (S n) = qsum k n + 2 * a (k + n)%nat * dsum k n + INR (S n) * (a (k + n)%nat * a (k + n)%nat).
Proof.
  induction n as [|n IH]; intros k; [cbn; rewrite Nat.add_0_r; ring|].
  change (qsum k (S (S n))) with (wsum k (S (S n)) * wsum k (S (S n)) + qsum (S k) (S n)). rewrite IH, wsum_end.
  cbn [qsum dsum]. rewrite Nat.add_succ_comm, (S_INR (S n)). ring.
Qed.
Lemma dsum_all : forall n, dsum 0 n = sum_to n (fun i => a i * INR (S i)).
Proof. induction n as [|n IH]; [reflexivity|]. rewrite dsum_end, IH. reflexivity. Qed.
Lemma qsum_all : forall n, qsum 0 n = vwalk n.
Proof. induction n as [|n IH]; [reflexivity|]. rewrite qsum_end, IH, dsum_all. reflexivity. Qed.
Lemma wsum_all : forall n, wsum 0 n = sum_to n a.
Proof. induction n as [|n IH]; [reflexivity|]. rewrite wsum_end, IH. reflexivity. Qed.

(** Backwards: the weight of date n + 1 once the earlier dates are drawn. *)
Fixpoint wback (n : nat) : R :=
  match n with O => a 0%nat | S n' => a n + wback n' * (INR n / INR (S n)) end.
Fixpoint qback (n : nat) : R :=
  match n with O => 0 | S n' => qback n' + wback n' * wback n' * (INR n / INR (S n)) end.
Lemma wback_all : forall n, wback n * INR (S n) = sum_to (S n) (fun i => a i * INR (S i)).
Proof.
  induction n as [|n IH]; [cbn; ring|]. cbn [sum_to] in *. rewrite <- IH. cbn [wback].
  assert (INR (S (S n)) <> 0) by (apply not_0_INR; lia). field. easy.
Qed.
Lemma qback_all : forall n, qback n + wback n * wback n * INR (S n) = vwalk (S n).
Proof.
  induction n as [|n IH]; [cbn; ring|].
  change (vwalk (S (S n))) with (vwalk (S n) + 2 * a (S n) * sum_to (S n) (fun i => a i * INR (S i)) + INR (S (S n)) * (a (S n) * a (S n))).
  rewrite <- IH, <- wback_all. cbn [wback qback]. rewrite (S_INR (S n)).
  assert (INR (S n) + 1 <> 0) by (rewrite <- S_INR; apply not_0_INR; lia). field. easy.
Qed.

Lemma powers_exp : forall path k, 0 < powers a k path.
Proof. induction path as [|x path IH]; intros k; cbn; [lra|]. apply Rmult_lt_0_compat; [apply exp_pos|apply IH]. Qed.
Lemma powers_app : forall path k x, powers a k (path ++ [x]) = powers a k path * exp (a (k + length path)%nat * ln x).
Proof.
  induction path as [|y path IH]; intros k x; cbn [app powers length].
  - rewrite Nat.add_0_r. ring.
  - rewrite IH, Nat.add_succ_comm. ring.
Qed.

(** ** Paths *)
Variables (d : StockData R) (r t : R) (n : Z).
Let dt := t / IZR n.
Let mu := (r - dividend d - getSigma d * getSigma d / 2) * dt.
Let b := getSigma d * sqrt dt.
Let body := record (fun S : R => S) (gbm_step d r t n).

Lemma next_ln : forall S z, 0 < S -> ln (S * exp (mu + b * z)) = ln S + mu + b * z.
Proof. intros S z H. rewrite ln_mult, ln_exp by (try apply exp_pos; easy). ring. Qed.

Lemma Enormal_exp : forall C x y, is_Enormal (fun z => C * exp (x + y * z)) (C * exp (x + y * y / 2)).
Proof.
  intros C x y. pose proof (E_normal C x y) as E. cbn in E. destruct E as (h & H & L). eapply is_Enormal_ext; [|exact L].
  intros z. cbn. rewrite <- (H _ I). f_equal. f_equal. ring.
Qed.

Lemma forward_moment : forall k S l, 0 < S ->
  is_E (piter k body (S, l)) (fun st => powers a 0 (snd st))
    (powers a 0 l * exp (wsum (length l) k * ln S + mu * dsum (length l) k + b * b / 2 * qsum (length l) k)).
Proof.
  induction k as [|k IH]; intros S l H.
  - cbn. rewrite !Rmult_0_l, !Rmult_0_r, !Rplus_0_r, exp_0. ring.
  - cbn [piter]. set (w := wsum (length l) (Datatypes.S k)).
    eapply (gbm_body d r t n _ (S, l) (piter k body)
      _ (fun z => powers a 0 l * exp ((w * (ln S + mu) + mu * dsum (Datatypes.S (length l)) k + b * b / 2 * qsum (Datatypes.S (length l)) k) + w * b * z))).
    + intros z. assert (H' : 0 < S * exp (mu + b * z)) by (apply Rmult_lt_0_compat; [easy|apply exp_pos]).
      pose proof (IH (S * exp (mu + b * z)) (l ++ [S * exp (mu + b * z)]) H') as E.
      rewrite app_length, Nat.add_comm in E. cbn [length Nat.add] in E. rewrite powers_app, next_ln in E by easy.
      unfold gbm_next. cbn [fst snd]. fold dt. fold mu. fold b.
      match goal with |- is_E _ _ ?m => match type of E with is_E _ _ ?m' => replace m with m'; [exact E|] end end.
      rewrite Rmult_assoc, <- exp_plus. f_equal. f_equal. unfold w. cbn [wsum Nat.add]. ring.
    + pose proof (Enormal_exp (powers a 0 l) (w * (ln S + mu) + mu * dsum (Datatypes.S (length l)) k + b * b / 2 * qsum (Datatypes.S (length l)) k) (w * b)) as E.
      match goal with |- is_Enormal _ ?m => match type of E with is_Enormal _ ?m' => replace m with m'; [exact E|] end end.
      f_equal. f_equal. cbn [dsum qsum]. fold w. field.
Qed.

(** The last price of the path goes to [k]. *)
Lemma end_moment : forall {Y} (K : R * list R -> sampler Y) f c e,
  (forall S l, 0 < S -> is_E (K (S, l ++ [S])) f (exp (c * ln S + e))) ->
  forall k S l, 0 < S -> is_E (pbind (piter (Datatypes.S k) body (S, l)) K) f (exp (c * (ln S + INR (Datatypes.S k) * mu) + INR (Datatypes.S k) * (c * c * (b * b)) / 2 + e)).
Proof.
  intros Y K f c e HK. induction k as [|k IH]; intros S l H; cbn [piter]; apply E_assoc.
  - apply (gbm_body d r t n Y (S, l) _ f (fun z => 1 * exp ((c * (ln S + mu) + e) + c * b * z))).
    + intros z. assert (H' : 0 < S * exp (mu + b * z)) by (apply Rmult_lt_0_compat; [easy|apply exp_pos]).
      pose proof (HK (S * exp (mu + b * z)) l H') as E. unfold gbm_next. cbn [fst snd pbind]. fold dt. fold mu. fold b.
      rewrite next_ln in E by easy.
      match goal with |- is_E _ _ ?m => match type of E with is_E _ _ ?m' => replace m with m'; [exact E|] end end.
      rewrite Rmult_1_l. f_equal. ring.
    + pose proof (Enormal_exp 1 (c * (ln S + mu) + e) (c * b)) as E.
      match goal with |- is_Enormal _ ?m => match type of E with is_Enormal _ ?m' => replace m with m'; [exact E|] end end.
      rewrite Rmult_1_l. f_equal. cbn [INR]. field.
  - set (j := Datatypes.S k) in *. apply (gbm_body d r t n Y (S, l) _ f (fun z => 1 * exp ((c * (ln S + mu + INR j * mu) + INR j * (c * c * (b * b)) / 2 + e) + c * b * z))).
    + intros z. assert (H' : 0 < S * exp (mu + b * z)) by (apply Rmult_lt_0_compat; [easy|apply exp_pos]).
      pose proof (IH (S * exp (mu + b * z)) (l ++ [S * exp (mu + b * z)]) H') as E. unfold gbm_next. cbn [fst snd]. fold dt. fold mu. fold b.
      rewrite next_ln in E by easy.
      match goal with |- is_E _ _ ?m => match type of E with is_E _ _ ?m' => replace m with m'; [exact E|] end end.
      rewrite Rmult_1_l. f_equal. ring.
    + pose proof (Enormal_exp 1 (c * (ln S + mu + INR j * mu) + INR j * (c * c * (b * b)) / 2 + e) (c * b)) as E.
      match goal with |- is_Enormal _ ?m => match type of E with is_Enormal _ ?m' => replace m with m'; [exact E|] end end.
      rewrite Rmult_1_l. f_equal. rewrite (S_INR j). field.
Qed.

(** The bridge. *)
Definition pback (S_next t_j t_jp1 : R) : sampler R :=
  pbind (pnew DStdNormal) (fun _ => pbind (pdraw (SNormal 0 1)) (fun z =>
    Done (Ok (getPrice d * exp (t_j / t_jp1 * ln (S_next / getPrice d) + sqrt (t_j * (t_jp1 - t_j) / t_jp1) * getSigma d * z))))).
Fixpoint pbackwards (k : nat) (x : R) (later : list R) : sampler (list R) :=
  match k with
  | O => Done (Ok (x :: later))
  | Datatypes.S k' => pbind (pback x (IZR (Z.of_nat k) * dt) (IZR (Z.of_nat k + 1) * dt)) (fun y => pbackwards k' y (x :: later))
  end.

Hypothesis dt0 : 0 < dt.
Hypothesis S0 : 0 < getPrice d.
Lemma back_moment : forall k x later, 0 < x ->
  is_E (pbackwards k x later) (powers a 0)
    (exp (wback k * ln x + (sum_to (Datatypes.S k) a - wback k) * ln (getPrice d) + b * b / 2 * qback k) * powers a (Datatypes.S k) later).
Proof.
  induction k as [|k IH]; intros x later X.
  - cbn. f_equal. f_equal. ring.
  - set (j := Datatypes.S k) in *. change (pbackwards j x later) with
      (pbind (pback x (IZR (Z.of_nat j) * dt) (IZR (Z.of_nat j + 1) * dt)) (fun y => pbackwards k y (x :: later))).
    unfold pback. apply E_assoc. apply E_new; [apply ctor_std|]. apply E_assoc.
    cbn [pbind pdraw].
    replace (IZR (Z.of_nat j) * dt) with (INR j * dt) by (now rewrite INR_IZR_INZ).
    replace (IZR (Z.of_nat j + 1) * dt) with (INR (Datatypes.S j) * dt) by (rewrite INR_IZR_INZ, Nat2Z.inj_succ; reflexivity).
    assert (J0 : 0 < INR j) by (apply lt_0_INR; lia). assert (J1 : 0 < INR (Datatypes.S j)) by (apply lt_0_INR; lia).
    set (q := INR j / INR (Datatypes.S j)).
    assert (Q0 : 0 < q) by (apply Rdiv_lt_0_compat; easy).
    replace (INR j * dt / (INR (Datatypes.S j) * dt)) with q by (unfold q; field; lra).
    replace (INR j * dt * (INR (Datatypes.S j) * dt - INR j * dt) / (INR (Datatypes.S j) * dt)) with (q * dt).
    2:{ unfold q. rewrite S_INR. rewrite S_INR in J1. field. lra. }
    set (y0 := q * ln (x / getPrice d)). set (s := sqrt (q * dt) * getSigma d).
    set (C := powers a (Datatypes.S j) later * exp (a j * ln x)).
    exists (fun z => C * exp (wback k * (ln (getPrice d) + y0) + (sum_to j a - wback k) * ln (getPrice d) + b * b / 2 * qback k + wback k * s * z)).
    split.
    + intros z _. assert (Y : 0 < getPrice d * exp (y0 + s * z)) by (apply Rmult_lt_0_compat; [easy|apply exp_pos]).
      pose proof (IH _ (x :: later) Y) as E. cbn [powers] in E. fold j in E.
      match goal with |- is_E _ _ ?m => match type of E with is_E _ _ ?m' => replace m with m'; [exact E|] end end.
      rewrite ln_mult, ln_exp by (try apply exp_pos; easy). unfold C. rewrite <- (Rmult_comm (exp (a j * ln x))).
      rewrite (Rmult_comm _ (exp (a j * ln x) * _)). f_equal. f_equal. ring.
    + cbn [is_law]. pose proof (Enormal_exp C (wback k * (ln (getPrice d) + y0) + (sum_to j a - wback k) * ln (getPrice d) + b * b / 2 * qback k) (wback k * s)) as E.
      match type of E with is_Enormal _ ?m => match goal with |- is_Enormal _ ?m' => replace m' with m end end.
      { eapply is_Enormal_ext; [|exact E]. intros z. cbn. f_equal. f_equal. ring. }
      unfold C. rewrite Rmult_assoc, (Rmult_comm (powers _ _ _)), <- exp_plus. f_equal. f_equal.
      assert (SS : s * s = q * (b * b)).
      { unfold s, b. replace (sqrt (q * dt) * getSigma d * (sqrt (q * dt) * getSigma d)) with (sqrt (q * dt) * sqrt (q * dt) * (getSigma d * getSigma d)) by ring.
        replace (getSigma d * sqrt dt * (getSigma d * sqrt dt)) with (sqrt dt * sqrt dt * (getSigma d * getSigma d)) by ring.
        rewrite !sqrt_sqrt; [ring|lra|]. apply Rmult_le_pos; [lra|left; exact dt0]. }
      replace (wback k * s * (wback k * s) / 2) with (wback k * wback k * (s * s) / 2) by field. rewrite SS.
      unfold y0. rewrite (ln_div x (getPrice d)) by easy.
      assert (W : wback j = a j + wback k * q) by reflexivity. assert (V : qback j = qback k + wback k * wback k * q) by reflexivity.
      rewrite W, V. cbn [sum_to]. field.
Qed.
End Weights.
