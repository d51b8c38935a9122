(** Poisson mixtures: sums of expectations, sums of independent counts, and the functions of
    mean and variance that absorb normal increments. *)
From Coq Require Import List ZArith Reals Bool Lra Lia Psatz.
From Coquelicot Require Import Coquelicot.
From Verif Require Import M_Num M_Outcome M_Random S_Prob S_Expect L_Gauss L_Expect L_Sampler L_Growth L_Normal L_Lognormal.
Import ListNotations.
Local Open Scope R_scope.

(** ** Series of nonnegative terms *)
Local Notation sumf := sum_f_R0.

Lemma series_iff : forall a l, is_series a l <-> forall eps, 0 < eps -> exists N, forall n, (N <= n)%nat -> Rabs (sumf a n - l) < eps.
Proof. intros a l. rewrite is_series_Reals. reflexivity. Qed.

Lemma sumf_le : forall a b n, (forall i, (i <= n)%nat -> a i <= b i) -> sumf a n <= sumf b n.
Proof. intros a b n H. now apply sum_Rle. Qed.
Lemma sumf_mono : forall a n m, (forall i, 0 <= a i) -> (n <= m)%nat -> sumf a n <= sumf a m.
Proof. intros a n m H L. induction L as [|m L IH]; [lra|]. cbn [sumf]. pose proof (H (S m)). lra. Qed.
Lemma series_above : forall a l n, (forall i, 0 <= a i) -> is_series a l -> sumf a n <= l.
Proof.
  intros a l n P H. destruct (Rle_dec (sumf a n) l) as [|G]; [easy|exfalso].
  destruct (proj1 (series_iff a l) H (sumf a n - l) ltac:(lra)) as (N & K).
  specialize (K (max N n) (Nat.le_max_l _ _)). pose proof (sumf_mono a n (max N n) P (Nat.le_max_r _ _)).
  apply Rabs_def2 in K. lra.
Qed.
Lemma series_squeeze : forall a l, (forall n, sumf a n <= l) ->
  (forall eps, 0 < eps -> exists N, forall n, (N <= n)%nat -> l - eps < sumf a n) -> is_series a l.
Proof.
  intros a l U L. apply series_iff. intros eps E. destruct (L eps E) as (N & H). exists N. intros n Hn.
  specialize (H n Hn). specialize (U n). apply Rabs_def1; lra.
Qed.

(** Finitely many terms become small at the same time. *)
Lemma finite_bound : forall (P : nat -> nat -> Prop) n, (forall i, exists N, forall k, (N <= k)%nat -> P i k) ->
  exists N, forall i k, (i <= n)%nat -> (N <= k)%nat -> P i k.
Proof.
  intros P n H. induction n as [|n (N & IH)].
  - destruct (H 0%nat) as (N & HN). exists N. intros i k I K. replace i with 0%nat by lia. now apply HN.
  - destruct (H (S n)) as (N' & HN). exists (max N N'). intros i k I K. destruct (Nat.eq_dec i (S n)) as [->|].
    + apply HN. lia.
    + apply IH; lia.
Qed.
Lemma sumf_const : forall c n, sumf (fun _ => c) n = c * INR (S n).
Proof. intros c n. rewrite sum_cte. ring. Qed.

Lemma is_series_le_R : forall a b l m, is_series a l -> is_series b m -> (forall j, 0 <= a j <= b j) -> l <= m.
Proof.
  intros a b l m A B H. rewrite <- (is_series_unique _ _ A), <- (is_series_unique _ _ B).
  apply Series_le; [exact H|now exists m].
Qed.

(** ** Triangles *)
Lemma triangle : forall (a : nat -> nat -> R) n,
  sumf (fun k => sumf (fun i => a i (k - i)%nat) k) n = sumf (fun i => sumf (a i) (n - i)) n.
Proof.
  intros a n. induction n as [|n IH]; [reflexivity|].
  change (sumf (fun k => sumf (fun i => a i (k - i)%nat) k) (S n)) with
    (sumf (fun k => sumf (fun i => a i (k - i)%nat) k) n + sumf (fun i => a i (S n - i)%nat) (S n)).
  rewrite IH. rewrite (tech5 _ n), (tech5 _ n). rewrite Nat.sub_diag. cbn [sumf].
  rewrite (sum_eq (fun i => sumf (a i) (S n - i)) (fun i => sumf (a i) (n - i) + a i (S n - i)%nat) n).
  - rewrite sum_plus. ring.
  - intros i I. replace (S n - i)%nat with (S (n - i)) by lia. reflexivity.
Qed.

Definition weight (l : R) (n : nat) : R := exp (- l) * (l ^ n / INR (fact n)).
Lemma weight_pos : forall l n, 0 <= l -> 0 <= weight l n.
Proof.
  intros l n L. unfold weight. apply Rmult_le_pos; [left; apply exp_pos|]. apply Rmult_le_pos; [now apply pow_le|].
  left. apply Rinv_0_lt_compat, INR_fact_lt_0.
Qed.
Lemma weight_conv : forall l1 l2 n, sumf (fun i => weight l1 i * weight l2 (n - i)) n = weight (l1 + l2) n.
Proof.
  intros l1 l2 n. unfold weight at 3. rewrite Ropp_plus_distr, exp_plus, binomial.
  rewrite (sum_eq _ (fun i => Binomial.C n i * l1 ^ i * l2 ^ (n - i) * (exp (- l1) * exp (- l2) / INR (fact n)))).
  - rewrite <- scal_sum. unfold Rdiv. ring.
  - intros i I. unfold weight, Binomial.C. field. repeat split; apply INR_fact_neq_0.
Qed.

(** The sum of two independent counts. *)
Lemma poisson_conv : forall l1 l2 H K m, 0 <= l1 -> 0 <= l2 -> (forall n, 0 <= H n) ->
  (forall i, is_Epoisson l2 (fun j => H (i + j)%nat) (K i)) -> is_Epoisson l1 K m -> is_Epoisson (l1 + l2) H m.
Proof.
  intros l1 l2 H K m L1 L2 HP HK HM.
  change (is_series (fun n => weight (l1 + l2) n * H n) m). change (is_series (fun n => weight l1 n * K n) m) in HM.
  assert (HK' : forall i, is_series (fun j => weight l2 j * H (i + j)%nat) (K i)) by exact HK. clear HK.
  assert (K0 : forall i, 0 <= K i).
  { intros i. eapply Rle_trans; [|apply (series_above (fun j => weight l2 j * H (i + j)%nat) (K i) 0%nat); [|apply HK']].
    - cbn. apply Rmult_le_pos; [now apply weight_pos|apply HP].
    - intros j. apply Rmult_le_pos; [now apply weight_pos|apply HP]. }
  set (a := fun i j => weight l1 i * (weight l2 j * H (i + j)%nat)).
  assert (A0 : forall i j, 0 <= a i j).
  { intros i j. unfold a. apply Rmult_le_pos; [now apply weight_pos|]. apply Rmult_le_pos; [now apply weight_pos|apply HP]. }
  assert (T : forall n, sumf (fun n => weight (l1 + l2) n * H n) n = sumf (fun i => sumf (a i) (n - i)) n).
  { intros n. rewrite <- triangle. apply sum_eq. intros k _. rewrite <- weight_conv, Rmult_comm, scal_sum. apply sum_eq.
    intros i I. unfold a. replace (i + (k - i))%nat with k by lia. ring. }
  assert (RI : forall i n, sumf (a i) n <= weight l1 i * K i).
  { intros i n. unfold a. rewrite <- (sum_eq (fun j => weight l2 j * H (i + j)%nat * weight l1 i)) by (intros; ring).
    rewrite <- scal_sum. apply Rmult_le_compat_l; [now apply weight_pos|].
    apply series_above; [|apply HK']. intros j. apply Rmult_le_pos; [now apply weight_pos|apply HP]. }
  assert (WK : forall i, 0 <= weight l1 i * K i) by (intros i; apply Rmult_le_pos; [now apply weight_pos|apply K0]).
  apply series_squeeze.
  - intros n. rewrite T. apply Rle_trans with (sumf (fun i => weight l1 i * K i) n).
    + apply sumf_le. intros i _. apply RI.
    + now apply series_above.
  - intros eps E. destruct (proj1 (series_iff _ _) HM (eps / 2) ltac:(lra)) as (N & HN). specialize (HN N (le_n N)). apply Rabs_def2 in HN.
    assert (IN : 0 < INR (S N)) by (apply lt_0_INR; lia).
    destruct (finite_bound (fun i k => weight l1 i * K i - eps / (2 * INR (S N)) < sumf (a i) k) N) as (J & HJ).
    { intros i. assert (S : is_series (a i) (weight l1 i * K i)).
      { pose proof (@is_series_scal R_AbsRing R_NormedModule (weight l1 i) _ _ (HK' i)) as S. exact S. }
      destruct (proj1 (series_iff _ _) S (eps / (2 * INR (Datatypes.S N)))) as (J & HJ); [apply Rdiv_lt_0_compat; lra|].
      exists J. intros k Hk. specialize (HJ k Hk). apply Rabs_def2 in HJ. lra. }
    exists (N + J)%nat. intros n Hn. rewrite T.
    apply Rlt_le_trans with (sumf (fun i => sumf (a i) (n - i)) N).
    + apply Rlt_le_trans with (sumf (fun i => weight l1 i * K i + - (eps / (2 * INR (S N)))) N).
      * rewrite sum_plus, sumf_const. replace (- (eps / (2 * INR (S N))) * INR (S N)) with (- (eps / 2)) by (field; lra). lra.
      * apply sumf_le. intros i I. specialize (HJ i (n - i)%nat I ltac:(lia)). lra.
    + apply sumf_mono; [|lia]. intros i. apply cond_pos_sum. apply A0.
Qed.

(** ** Series under the normal integral *)
Lemma Enormal_RInt : forall g m a b, is_Enormal g m -> a <= b -> ex_RInt (fun z => g z * phi z) a b.
Proof.
  intros g m a b H L. destruct (H 1 ltac:(lra)) as (A & A0 & K). pose proof (Rle_abs b). pose proof (Rle_abs (- a)) as B1. rewrite Rabs_Ropp in B1.
  destruct (K (- (A + Rabs a + Rabs b + 1)) (A + Rabs a + Rabs b + 1)) as (I & HI & _).
  - pose proof (Rabs_pos a). pose proof (Rabs_pos b). lra.
  - pose proof (Rabs_pos a). pose proof (Rabs_pos b). lra.
  - pose proof (Rabs_pos a). pose proof (Rabs_pos b).
    apply (ex_RInt_Chasles_1 (V := R_CompleteNormedModule)) with (A + Rabs a + Rabs b + 1); [lra|].
    apply (ex_RInt_Chasles_2 (V := R_CompleteNormedModule)) with (- (A + Rabs a + Rabs b + 1)); [lra|]. now exists I.
Qed.

Lemma Enormal_above : forall g m a b, (forall z, 0 <= g z) -> is_Enormal g m -> a <= b -> RInt (fun z => g z * phi z) a b <= m.
Proof.
  intros g m a b P H L. set (G := fun z => g z * phi z).
  assert (G0 : forall z, 0 <= G z) by (intros z; apply Rmult_le_pos; [apply P|left; apply phi_pos]).
  assert (EX : forall x y, x <= y -> ex_RInt G x y) by (intros; now apply (Enormal_RInt g m)).
  destruct (Rle_dec (RInt G a b) m) as [|N]; [easy|exfalso].
  destruct (H (RInt G a b - m) ltac:(lra)) as (A & A0 & K).
  pose proof (Rle_abs b). pose proof (Rle_abs (- a)) as B1. rewrite Rabs_Ropp in B1. pose proof (Rabs_pos a). pose proof (Rabs_pos b).
  set (x := - (A + Rabs a + Rabs b + 1)). set (y := A + Rabs a + Rabs b + 1).
  destruct (K x y) as (I & HI & B); [unfold x; lra|unfold y; lra|].
  assert (HI' : RInt G x y = I) by exact (is_RInt_unique (V := R_CompleteNormedModule) _ _ _ _ HI). rewrite <- HI' in B.
  assert (X : x <= a) by (unfold x; lra). assert (Y : b <= y) by (unfold y; lra).
  rewrite <- (RInt_Chasles G x a y) in B by (apply EX; lra). rewrite <- (RInt_Chasles G a b y) in B by (apply EX; lra).
  assert (0 <= RInt G x a) by (apply RInt_ge_0; [lra|apply EX; lra|intros; apply G0]).
  assert (0 <= RInt G b y) by (apply RInt_ge_0; [lra|apply EX; lra|intros; apply G0]).
  change (Rabs (RInt G x a + (RInt G a b + RInt G b y) - m) < RInt G a b - m) in B. apply Rabs_def2 in B. lra.
Qed.

Lemma Rle_exp : forall x y, x <= y -> exp x <= exp y.
Proof. intros x y [L| ->]; [left; now apply exp_increasing|lra]. Qed.
Lemma phi_le_1 : forall z, phi z <= 1.
Proof.
  intros z. unfold phi. assert (S : 1 <= sqrt (2 * PI)).
  { rewrite <- sqrt_1 at 1. apply sqrt_le_1; pose proof PI_RGT_0; try lra. pose proof PI2_1. unfold PI2 in *. lra. }
  apply (Rmult_le_reg_r (sqrt (2 * PI))); [lra|]. unfold Rdiv. rewrite Rmult_assoc, Rinv_l by lra.
  rewrite Rmult_1_r, Rmult_1_l. apply Rle_trans with (exp 0); [|rewrite exp_0; lra]. apply Rle_exp. nra.
Qed.

Lemma tail_small : forall u : nat -> R, ex_series u -> (forall j, 0 <= u j) -> forall eps, 0 < eps ->
  exists N, forall n, (N <= n)%nat -> Series u - sumf u n < eps.
Proof.
  intros u E P eps Ep. destruct (proj1 (series_iff u (Series u)) (Series_correct _ E) eps Ep) as (N & H).
  exists N. intros n Hn. specialize (H n Hn). apply Rabs_def2 in H. lra.
Qed.

Lemma sumf_gap : forall (g u : nat -> R) f, (forall j, 0 <= g j <= u j) -> ex_series u -> is_series g f ->
  forall n, 0 <= f - sumf g n <= Series u - sumf u n.
Proof.
  intros g u f H E F n. split.
  - pose proof (series_above g f n (fun j => proj1 (H j)) F). lra.
  - assert (D : is_series (fun j => u j - g j) (Series u - f)) by (apply (is_series_minus (V := R_NormedModule)); [now apply Series_correct|exact F]).
    assert (B : sumf (fun j => u j - g j) n <= Series u - f) by (apply series_above; [intros j; pose proof (H j); lra|exact D]).
    rewrite minus_sum in B. lra.
Qed.

Lemma Enormal_series : forall (g : nat -> R -> R) mj M f,
  (forall j z, 0 <= g j z) -> (forall j, is_Enormal (g j) (mj j)) -> is_series mj M ->
  (forall z, is_series (fun j => g j z) (f z)) ->
  (forall a b, exists u, ex_series u /\ forall j z, a <= z <= b -> g j z <= u j) ->
  is_Enormal f M.
Proof.
  intros g mj M f P EN SM SF UN.
  assert (MJ : forall j, 0 <= mj j).
  { intros j. apply (Enormal_mono (fun _ => 0) (g j)); [intros z; apply P|apply Enormal_const|apply EN]. }
  (* on a bounded interval *)
  assert (IN : forall a b, a <= b -> exists I, is_RInt (fun z => f z * phi z) a b I /\ is_series (fun j => RInt (fun z => g j z * phi z) a b) I).
  { intros a b AB. destruct (UN a b) as (u & EU & BU).
    assert (U0 : forall j, 0 <= u j) by (intros j; apply Rle_trans with (g j a); [apply P|apply BU; lra]).
    set (cut := fun (F : R -> R) z => if Rle_dec a z then if Rle_dec z b then F z else 0 else 0).
    assert (CUT : forall F z, Rmin a b < z < Rmax a b -> cut F z = F z).
    { intros F z. rewrite Rmin_left, Rmax_right by lra. intros Z. unfold cut. destruct (Rle_dec a z); [|lra]. destruct (Rle_dec z b); lra. }
    destruct (@filterlim_RInt nat R_CompleteNormedModule (fun n => cut (fun z => sumf (fun j => g j z * phi z) n)) a b eventually _
      (cut (fun z => f z * phi z)) (fun n => sumf (fun j => RInt (fun z => g j z * phi z) a b) n)) as (I & LI & HI).
    - intros n. apply (is_RInt_ext (V := R_NormedModule) (fun z => sumf (fun j => g j z * phi z) n)).
      { intros z Z. symmetry. now apply CUT. }
      induction n as [|n IH]; cbn [sumf].
      + apply (@RInt_correct R_CompleteNormedModule). now apply (Enormal_RInt _ (mj 0%nat)).
      + apply (is_RInt_plus (V := R_NormedModule)); [exact IH|]. apply (@RInt_correct R_CompleteNormedModule). now apply (Enormal_RInt _ (mj (S n))).
    - intros Q (e & HQ). destruct (tail_small u EU U0 e (cond_pos e)) as (N & HN). exists N. intros n Hn. apply HQ. intros z.
      change (Rabs (cut (fun z => sumf (fun j => g j z * phi z) n) z - cut (fun z => f z * phi z) z) < e). unfold cut.
      destruct (Rle_dec a z) as [Z1|]; [|rewrite Rminus_0_r, Rabs_R0; apply cond_pos].
      destruct (Rle_dec z b) as [Z2|]; [|rewrite Rminus_0_r, Rabs_R0; apply cond_pos].
      pose proof (sumf_gap (fun j => g j z) u (f z) (fun j => conj (P j z) (BU j z (conj Z1 Z2))) EU (SF z) n) as G.
      specialize (HN n Hn). rewrite <- scal_sum. pose proof (phi_pos z). pose proof (phi_le_1 z).
      replace (phi z * sumf (fun j => g j z) n - f z * phi z) with (- (phi z * (f z - sumf (fun j => g j z) n))) by ring.
      rewrite Rabs_Ropp, Rabs_pos_eq by (apply Rmult_le_pos; lra). nra.
    - exists I. split.
      + apply (is_RInt_ext (V := R_NormedModule) (cut (fun z => f z * phi z))); [exact (CUT _)|exact HI].
      + apply is_series_Reals. apply is_lim_seq_Reals in LI. exact LI. }
  intros eps E.
  destruct (proj1 (series_iff _ _) SM (eps / 2) ltac:(lra)) as (N & HN). specialize (HN N (le_n N)). apply Rabs_def2 in HN.
  assert (NP : 0 < INR (S N)) by (apply lt_0_INR; lia). set (e := eps / (2 * INR (S N))). assert (E0 : 0 < e) by (apply Rdiv_lt_0_compat; lra).
  assert (FA : exists A, 0 < A /\ forall j a b, (j <= N)%nat -> a < - A -> A < b -> mj j - e < RInt (fun z => g j z * phi z) a b).
  { clear HN. assert (H : forall n, exists A, 0 < A /\ forall j a b, (j <= n)%nat -> a < - A -> A < b -> mj j - e < RInt (fun z => g j z * phi z) a b).
    { assert (H1 : forall j, exists A, 0 < A /\ forall a b, a < - A -> A < b -> mj j - e < RInt (fun z => g j z * phi z) a b).
      { intros j. destruct (EN j e E0) as (A & A0 & K). exists A. split; [easy|]. intros a b Ha Hb. destruct (K a b Ha Hb) as (I & HI & B).
        assert (HI' : RInt (fun z => g j z * phi z) a b = I) by exact (is_RInt_unique (V := R_CompleteNormedModule) _ _ _ _ HI).
        rewrite HI'. apply Rabs_def2 in B. lra. }
      induction n as [|n (A & A0 & IH)].
      - destruct (H1 0%nat) as (A & A0 & K). exists A. split; [easy|]. intros j a b J. replace j with 0%nat by lia. apply K.
      - destruct (H1 (S n)) as (A' & A0' & K). exists (Rmax A A'). pose proof (Rmax_l A A'). pose proof (Rmax_r A A'). split; [lra|].
        intros j a b J Ha Hb. destruct (Nat.eq_dec j (S n)) as [->|]; [apply K; lra|apply IH; [lia|lra|lra]]. }
    apply H. }
  destruct FA as (A & A0 & HA). exists A. split; [easy|]. intros a b Ha Hb. destruct (IN a b ltac:(lra)) as (I & HI & SI).
  exists I. split; [exact HI|].
  assert (J0 : forall j, 0 <= RInt (fun z => g j z * phi z) a b).
  { intros j. apply RInt_ge_0; [lra|apply (Enormal_RInt _ (mj j)); [easy|lra]|]. intros z _. apply Rmult_le_pos; [apply P|left; apply phi_pos]. }
  assert (U : I <= M).
  { apply (is_series_le_R _ _ _ _ SI SM). intros j. split; [apply J0|]. apply Enormal_above; [apply P|apply EN|lra]. }
  pose proof (series_above _ _ N J0 SI) as L.
  assert (L2 : sumf (fun j => mj j + - e) N <= sumf (fun j => RInt (fun z => g j z * phi z) a b) N).
  { apply sumf_le. intros j J. specialize (HA j a b J Ha Hb). lra. }
  rewrite sum_plus, sumf_const in L2. replace (- e * INR (S N)) with (- (eps / 2)) in L2 by (unfold e; field; lra).
  apply Rabs_def1; lra.
Qed.

(** ** Mixtures *)
Definition tame (W : R -> R -> R) : Prop :=
  exists A B, 0 <= A /\ 0 <= B /\ forall m s2, 0 <= s2 -> 0 <= W m s2 <= A * exp (m + s2 / 2) + B.

Section Mix.
Variables (muJ sJ : R).
Hypothesis sJ0 : 0 < sJ.
Let x := exp (muJ + sJ * sJ / 2).

Definition jumped (W : R -> R -> R) (m s2 : R) (j : nat) : R := W (m + INR j * muJ) (s2 + INR j * (sJ * sJ)).
Definition mix (l : R) (W : R -> R -> R) (m s2 : R) : R := Series (fun j => weight l j * jumped W m s2 j).

Lemma var_grows : forall s2 j, 0 <= s2 -> 0 <= s2 + INR j * (sJ * sJ).
Proof. intros s2 j H. pose proof (pos_INR j). nra. Qed.
Lemma x_pow : forall m s2 j, exp (m + INR j * muJ + (s2 + INR j * (sJ * sJ)) / 2) = exp (m + s2 / 2) * x ^ j.
Proof.
  intros m s2 j. assert (X : x ^ j = exp (INR j * (muJ + sJ * sJ / 2))).
  { induction j as [|j IH]; [cbn; now rewrite Rmult_0_l, exp_0|]. rewrite <- tech_pow_Rmult, IH, S_INR. unfold x. rewrite <- exp_plus. f_equal. ring. }
  rewrite X, <- exp_plus. f_equal. field.
Qed.
Lemma jumped_bound : forall W A B, (forall m s2, 0 <= s2 -> 0 <= W m s2 <= A * exp (m + s2 / 2) + B) ->
  forall m s2 j, 0 <= s2 -> 0 <= jumped W m s2 j <= A * exp (m + s2 / 2) * x ^ j + B * 1 ^ j.
Proof.
  intros W A B H m s2 j S. unfold jumped. pose proof (H (m + INR j * muJ) _ (var_grows s2 j S)) as K. rewrite x_pow in K.
  rewrite pow1. lra.
Qed.
Lemma mix_bound_sum : forall l C D, is_series (fun j => weight l j * (C * x ^ j + D * 1 ^ j)) (C * exp (l * (x - 1)) + D).
Proof.
  intros l C D. pose proof (Epoisson_pow l C x) as H1. pose proof (Epoisson_pow l D 1) as H2.
  replace (D * exp (l * (1 - 1))) with D in H2 by (rewrite Rminus_diag_eq, Rmult_0_r, exp_0 by easy; ring).
  pose proof (is_series_plus (V := R_NormedModule) _ _ _ _ H1 H2) as H. eapply is_series_ext; [|exact H].
  intros j. unfold weight, plus; cbn. ring.
Qed.

Lemma mix_ok : forall l W m s2, 0 <= l -> tame W -> 0 <= s2 -> is_Epoisson l (jumped W m s2) (mix l W m s2).
Proof.
  intros l W m s2 L (A & B & A0 & B0 & H) S. apply (Series_correct (fun j => weight l j * jumped W m s2 j)).
  apply (@ex_series_le R_AbsRing R_CompleteNormedModule _ (fun j => weight l j * (A * exp (m + s2 / 2) * x ^ j + B * 1 ^ j))).
  - intros j. pose proof (jumped_bound W A B H m s2 j S). pose proof (weight_pos l j L).
    change (Rabs (weight l j * jumped W m s2 j) <= weight l j * (A * exp (m + s2 / 2) * x ^ j + B * 1 ^ j)).
    rewrite Rabs_pos_eq by (apply Rmult_le_pos; lra). apply Rmult_le_compat_l; lra.
  - eexists. apply mix_bound_sum.
Qed.
Lemma mix_tame : forall l W, 0 <= l -> tame W -> tame (mix l W).
Proof.
  intros l W L T. pose proof T as (A & B & A0 & B0 & H). exists (A * exp (l * (x - 1))), B. pose proof (exp_pos (l * (x - 1))).
  split; [nra|]. split; [easy|]. intros m s2 S. pose proof (mix_ok l W m s2 L T S) as M.
  assert (J0 : forall j, 0 <= weight l j * jumped W m s2 j).
  { intros j. apply Rmult_le_pos; [now apply weight_pos|]. now apply (jumped_bound W A B H). }
  split.
  - apply Rle_trans with (sumf (fun j => weight l j * jumped W m s2 j) 0); [apply J0|]. now apply series_above.
  - replace (A * exp (l * (x - 1)) * exp (m + s2 / 2) + B) with (A * exp (m + s2 / 2) * exp (l * (x - 1)) + B) by ring.
    apply (is_series_le_R _ _ _ _ M (mix_bound_sum l _ _)). intros j. split; [apply J0|].
    apply Rmult_le_compat_l; [now apply weight_pos|]. now apply (jumped_bound W A B H).
Qed.

Lemma mix_absorbs : forall l W, 0 <= l -> tame W -> absorbs W -> absorbs (mix l W).
Proof.
  intros l W L T HA m s2 c S C. pose proof T as (A & B & A0 & B0 & H).
  apply (Enormal_series (fun j z => weight l j * jumped W (m + c * z) s2 j) (fun j => weight l j * jumped W m (s2 + c * c) j)).
  - intros j z. apply Rmult_le_pos; [now apply weight_pos|]. now apply (jumped_bound W A B H).
  - intros j. pose proof (HA (m + INR j * muJ) (s2 + INR j * (sJ * sJ)) c (var_grows s2 j S) C) as E.
    pose proof (Enormal_lin _ _ _ _ (weight l j) 0 E E) as E'. unfold jumped.
    replace (s2 + c * c + INR j * (sJ * sJ)) with (s2 + INR j * (sJ * sJ) + c * c) by ring.
    match goal with |- is_Enormal _ ?y => match type of E' with is_Enormal _ ?y' => replace y with y' by ring end end.
    eapply is_Enormal_ext; [|exact E']. intros z. cbn. replace (m + c * z + INR j * muJ) with (m + INR j * muJ + c * z) by ring. ring.
  - apply mix_ok; [easy|easy|nra].
  - intros z. now apply mix_ok.
  - intros a b. exists (fun j => weight l j * (A * exp (m + c * b + s2 / 2) * x ^ j + B * 1 ^ j)). split; [eexists; apply mix_bound_sum|].
    intros j z Z. apply Rmult_le_compat_l; [now apply weight_pos|].
    eapply Rle_trans; [apply (jumped_bound W A B H); exact S|]. apply Rplus_le_compat_r. apply Rmult_le_compat_r; [apply pow_le; left; apply exp_pos|].
    apply Rmult_le_compat_l; [easy|]. apply Rle_exp. nra.
Qed.

Lemma mix_mix : forall l1 l2 W m s2, 0 <= l1 -> 0 <= l2 -> tame W -> 0 <= s2 -> mix l1 (mix l2 W) m s2 = mix (l1 + l2) W m s2.
Proof.
  intros l1 l2 W m s2 L1 L2 T S. apply (is_Epoisson_unique (l1 + l2) (jumped W m s2)); [|apply mix_ok; lra || easy].
  pose proof T as (A & B & A0 & B0 & H).
  apply (poisson_conv l1 l2 _ (jumped (mix l2 W) m s2)); [easy|easy| | |].
  - intros j. now apply (jumped_bound W A B H).
  - intros i. pose proof (mix_ok l2 W (m + INR i * muJ) (s2 + INR i * (sJ * sJ)) L2 T (var_grows s2 i S)) as E.
    unfold is_Epoisson in *. eapply is_series_ext; [|exact E]. intros j. cbn. unfold jumped. rewrite plus_INR. f_equal. f_equal; ring.
  - apply mix_ok; [easy|now apply mix_tame|easy].
Qed.

(** The jumps of one step. *)
Lemma jumps_absorb : forall W, absorbs W -> forall k m js s2, 0 <= s2 ->
  is_E (piter k (fun jumpSize => pbind (pdraw (SNormal muJ sJ)) (fun j => Done (Ok (jumpSize + j)))) js)
    (fun js => W (m + js) s2) (jumped W (m + js) s2 k).
Proof.
  intros W HA k. induction k as [|k IH]; intros m js s2 S.
  - cbn [piter is_E]. unfold jumped. cbn [INR]. f_equal; ring.
  - cbn [piter]. apply E_assoc. cbn [pbind pdraw].
    exists (fun j => jumped W (m + (js + j)) s2 k). split; [intros j _; now apply IH|]. cbn.
    unfold jumped. rewrite S_INR.
    pose proof (HA (m + js + INR (Datatypes.S k) * muJ) (s2 + INR k * (sJ * sJ)) sJ (var_grows s2 k S) sJ0) as E.
    replace (s2 + (INR k + 1) * (sJ * sJ)) with (s2 + INR k * (sJ * sJ) + sJ * sJ) by ring. rewrite S_INR in E.
    eapply is_Enormal_ext; [|exact E]. intros z. cbn. f_equal. ring.
Qed.
End Mix.
