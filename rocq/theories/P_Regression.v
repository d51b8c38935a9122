(** Properties C64, C65 and C77: Lasso and Ridge regression. *)
From Coq Require Import List ZArith Bool Lia Reals Lra.
From Flocq Require Import Core.
From Verif Require Import M_Num M_Outcome M_Regression S_Numeric P_LinearSystem.
Import ListNotations.
Local Open Scope R_scope.

(** ** Sums and products of vectors *)
Lemma sum_plus : forall n f g, Rsum n (fun j => f j + g j) = Rsum n f + Rsum n g.
Proof. induction n as [|n IH]; intros; cbn; [ring|]. rewrite IH. ring. Qed.
Lemma sum_scal : forall n c f, Rsum n (fun j => c * f j) = c * Rsum n f.
Proof. induction n as [|n IH]; intros; cbn; [ring|]. rewrite IH. ring. Qed.
Lemma sum_swap : forall m n f, Rsum m (fun i => Rsum n (fun j => f i j)) = Rsum n (fun j => Rsum m (fun i => f i j)).
Proof.
  induction m as [|m IH]; intros n f; cbn.
  - symmetry. now apply Rsum_0.
  - rewrite IH. rewrite sum_plus. reflexivity.
Qed.
Lemma sum_single : forall n i f, (i < n)%nat -> Rsum n (fun j => if Nat.eqb i j then f j else 0) = f i.
Proof.
  induction n as [|n IH]; intros i f H; [lia|]. cbn. destruct (Nat.eqb_spec i n) as [->|N].
  - rewrite Rsum_0; [ring|]. intros j J. destruct (Nat.eqb_spec n j); [lia|easy].
  - rewrite IH by lia. ring.
Qed.
Lemma sum_sq_zero : forall n f, Rsum n (fun j => f j * f j) <= 0 -> forall j, (j < n)%nat -> f j = 0.
Proof.
  induction n as [|n IH]; intros f H j J; [lia|]. cbn in H.
  assert (0 <= Rsum n (fun j => f j * f j)) by (apply Rsum_nonneg; intros; nra).
  assert (f n * f n <= 0) by lra. destruct (Nat.eq_dec j n) as [->|N]; [nra|]. apply IH; [|lia]. nra.
Qed.

Lemma fold_plus : forall l a, fold_left Rplus l a = a + Rsum (length l) (el l).
Proof.
  induction l as [|y l IH]; intros a; cbn [fold_left length]; [cbn; ring|].
  rewrite IH. change (Datatypes.S (length l)) with (1 + length l)%nat. rewrite Rsum_app. cbn [Rsum].
  unfold el. cbn [nth Nat.add]. ring.
Qed.
Lemma dot_sum : forall u v : list R, length u = length v -> dot u v = Rsum (length u) (fun j => el u j * el v j).
Proof.
  intros u v L. unfold dot, nsum. cbn [nadd Rnum]. rewrite fold_plus. unfold n0. cbn [nofZ Rnum].
  rewrite map_length, combine_length, <- L, Nat.min_id, Rplus_0_l. apply Rsum_ext. intros j J.
  unfold el. rewrite (nth_indep _ 0 (nmul 0 0)) by (rewrite map_length, combine_length; lia).
  change (nmul 0 0) with ((fun p : R * R => nmul (fst p) (snd p)) (0, 0)). rewrite map_nth, combine_nth by easy. reflexivity.
Qed.

(** m x k matrices *)
Definition shaped (m k : nat) (A : list (list R)) : Prop :=
  length A = m /\ Forall (fun row => length row = k) A.
(** (A x)_r *)
Definition mv (A : list (list R)) (k : nat) (x : nat -> R) (r : nat) : R := Rsum k (fun j => entry A r j * x j).

(** |A x - y|^2 + lambda |x|^2 *)
Definition ridge_objective (m k : nat) (lambda : R) (A : list (list R)) (y x : list R) : R :=
  Rsum m (fun r => (mv A k (el x) r - el y r) ^ 2) + lambda * Rsum k (fun j => el x j ^ 2).
(** |A x - y|^2 / 2 + lambda |x|_1 *)
Definition lasso_objective (m k : nat) (lambda : R) (A : list (list R)) (y x : list R) : R :=
  Rsum m (fun r => (mv A k (el x) r - el y r) ^ 2) / 2 + lambda * Rsum k (fun j => Rabs (el x j)).

Lemma column_el : forall A j r, (r < length A)%nat -> el (column A j) r = entry A r j.
Proof.
  intros A j r H. unfold el, column, entry. rewrite (nth_indep _ 0 (nth j [] 0)) by (rewrite map_length; lia).
  exact (map_nth (fun row : list R => nth j row 0) A [] r).
Qed.
Lemma columns_eq : forall m k A, shaped m k A -> (1 <= m)%nat -> columns A = map (column A) (seq 0 k).
Proof.
  intros m k A [L F] M. unfold columns. destruct A as [|row A]; [cbn in L; lia|]. inversion F; subst. reflexivity.
Qed.
Lemma nth_columns : forall m k A j, shaped m k A -> (1 <= m)%nat -> (j < k)%nat -> nth j (columns A) [] = column A j.
Proof.
  intros m k A j S M J. rewrite (columns_eq m k A S M).
  rewrite (nth_indep _ [] (column A 0)) by (rewrite map_length, seq_length; lia). rewrite map_nth, seq_nth by lia. reflexivity.
Qed.
Lemma nth_map_seq : forall (B : Type) (g : nat -> B) n i d, (i < n)%nat -> nth i (map g (seq 0 n)) d = g i.
Proof.
  intros B g n i d H. rewrite (nth_indep _ d (g 0%nat)) by (rewrite map_length, seq_length; lia).
  rewrite map_nth, seq_nth by lia. reflexivity.
Qed.
Lemma dot_columns : forall m k A i j, shaped m k A ->
  dot (column A i) (column A j) = Rsum m (fun r => entry A r i * entry A r j).
Proof.
  intros m k A i j [L _]. rewrite dot_sum by (unfold column; now rewrite !map_length).
  unfold column at 1. rewrite map_length, L. apply Rsum_ext. intros r H. now rewrite !column_el by lia.
Qed.

Lemma ridge_entry : forall m k lambda A i j, shaped m k A -> (1 <= m)%nat -> (i < k)%nat -> (j < k)%nat ->
  entry (ridge_matrix lambda A) i j =
    Rsum m (fun r => entry A r i * entry A r j) + (if Nat.eqb i j then lambda else 0).
Proof.
  intros m k lambda A i j S M I J. unfold ridge_matrix.
  assert (LC : length (columns A) = k) by (rewrite (columns_eq m k A S M), map_length, seq_length; easy).
  rewrite LC. unfold entry at 1, el. rewrite nth_map_seq by easy. rewrite nth_map_seq by easy.
  rewrite !(nth_columns m k) by easy. rewrite (dot_columns m k) by easy. unfold n1, n0. cbn [nadd nmul nofZ Rnum].
  destruct (Nat.eqb i j); ring.
Qed.
Lemma ridge_rhs_el : forall m k A y i, shaped m k A -> (1 <= m)%nat -> length y = m -> (i < k)%nat ->
  el (ridge_rhs A y) i = Rsum m (fun r => entry A r i * el y r).
Proof.
  intros m k A y i S M LY I. unfold ridge_rhs. rewrite (columns_eq m k A S M), map_map. unfold el at 1.
  rewrite nth_map_seq by easy. rewrite dot_sum by (unfold column; rewrite map_length; destruct S; lia).
  unfold column at 1. rewrite map_length. destruct S as [L F]. rewrite L. apply Rsum_ext. intros r H.
  now rewrite column_el by lia.
Qed.

(** The normal equations, row by row. *)
Lemma ridge_normal : forall m k lambda A y x, shaped m k A -> (1 <= m)%nat -> length y = m ->
  solves k (ridge_matrix lambda A) x (ridge_rhs A y) ->
  forall i, (i < k)%nat -> Rsum m (fun r => entry A r i * (mv A k (el x) r - el y r)) + lambda * el x i = 0.
Proof.
  intros m k lambda A y x S M LY [_ H] i I. specialize (H i I).
  rewrite (ridge_rhs_el m k) in H by easy.
  rewrite (Rsum_ext k _ (fun j => Rsum m (fun r => entry A r i * (entry A r j * el x j)) + (if Nat.eqb i j then lambda * el x j else 0))) in H.
  2:{ intros j J. rewrite (ridge_entry m k) by easy. rewrite Rmult_plus_distr_r. f_equal.
      - rewrite Rmult_comm, <- sum_scal. apply Rsum_ext. intros. ring.
      - destruct (Nat.eqb i j); ring. }
  rewrite sum_plus, sum_single in H by easy. rewrite <- sum_swap in H.
  rewrite (Rsum_ext m _ (fun r => entry A r i * mv A k (el x) r)) in H by (intros; unfold mv; now rewrite sum_scal).
  rewrite (Rsum_ext m _ (fun r => entry A r i * mv A k (el x) r + (-1) * (entry A r i * el y r))) by (intros; ring).
  rewrite sum_plus, sum_scal. lra.
Qed.

(** Moving from a solution of the normal equations to z costs |A (z-x)|^2 + lambda |z-x|^2. *)
Lemma ridge_gap : forall m k lambda A y x z, shaped m k A -> (1 <= m)%nat -> length y = m ->
  solves k (ridge_matrix lambda A) x (ridge_rhs A y) ->
  ridge_objective m k lambda A y z = ridge_objective m k lambda A y x
    + Rsum m (fun r => mv A k (fun j => el z j - el x j) r ^ 2) + lambda * Rsum k (fun j => (el z j - el x j) ^ 2).
Proof.
  intros m k lambda A y x z S M LY SOL. pose proof (ridge_normal m k lambda A y x S M LY SOL) as NE.
  unfold ridge_objective. set (h := fun j => el z j - el x j). set (g := fun r => mv A k (el x) r - el y r).
  assert (MZ : forall r, mv A k (el z) r - el y r = g r + mv A k h r).
  { intros r. unfold g, mv, h.
    rewrite (Rsum_ext k (fun j => entry A r j * (el z j - el x j)) (fun j => entry A r j * el z j + (-1) * (entry A r j * el x j)))
      by (intros; ring). rewrite sum_plus, sum_scal. ring. }
  rewrite (Rsum_ext m _ (fun r => g r ^ 2 + (2 * (g r * mv A k h r) + mv A k h r ^ 2))) by (intros; rewrite MZ; ring).
  rewrite (Rsum_ext k (fun j => el z j ^ 2) (fun j => el x j ^ 2 + (2 * (h j * el x j) + h j ^ 2))) by (intros; unfold h; ring).
  rewrite !sum_plus, !sum_scal.
  change (fun r => (mv A k (el x) r - el y r) ^ 2) with (fun r => g r ^ 2).
  change (fun j => (el z j - el x j) ^ 2) with (fun j => h j ^ 2).
  assert (CROSS : Rsum m (fun r => g r * mv A k h r) + lambda * Rsum k (fun j => h j * el x j) = 0).
  { rewrite (Rsum_ext m _ (fun r => Rsum k (fun j => h j * (entry A r j * g r)))).
    2:{ intros r _. unfold mv. rewrite <- sum_scal. apply Rsum_ext. intros. ring. }
    rewrite sum_swap, <- sum_scal, <- sum_plus. apply Rsum_0. intros j J.
    rewrite sum_scal. specialize (NE j J). change (Rsum m (fun r => entry A r j * g r) + lambda * el x j = 0) in NE.
    transitivity (h j * (Rsum m (fun r => entry A r j * g r) + lambda * el x j)); [ring|]. rewrite NE. ring. }
  lra.
Qed.

(** ** C65 *)
Theorem C65_ridge_minimises : forall la m k lambda A y x,
  0 <= lambda -> shaped m k A -> (1 <= m)%nat -> length y = m ->
  solve la (Ridge lambda) A y = Ok x ->
  (* Eigen's LDLT returned a solution of the system it was given *)
  solves k (ridge_matrix lambda A) (la_ldlt la (ridge_matrix lambda A) (ridge_rhs A y)) (ridge_rhs A y) ->
  (forall z, ridge_objective m k lambda A y x <= ridge_objective m k lambda A y z) /\
  (0 < lambda -> forall z, length z = k ->
     ridge_objective m k lambda A y z <= ridge_objective m k lambda A y x -> z = x).
Proof.
  intros la m k lambda A y x LAM S M LY E SOL. cbn [solve] in E. injection E as E. rewrite E in SOL. clear E.
  pose proof (fun z => ridge_gap m k lambda A y x z S M LY SOL) as GAP.
  assert (P1 : forall z, 0 <= Rsum m (fun r => mv A k (fun j => el z j - el x j) r ^ 2)).
  { intros z. apply Rsum_nonneg. intros. apply pow2_ge_0. }
  assert (P2 : forall z, 0 <= Rsum k (fun j => (el z j - el x j) ^ 2)).
  { intros z. apply Rsum_nonneg. intros. apply pow2_ge_0. }
  split.
  - intros z. rewrite (GAP z). specialize (P1 z). specialize (P2 z). nra.
  - intros POS z LZ H. rewrite (GAP z) in H. specialize (P1 z). specialize (P2 z).
    assert (Z : Rsum k (fun j => (el z j - el x j) * (el z j - el x j)) <= 0).
    { rewrite (Rsum_ext k _ (fun j => (el z j - el x j) ^ 2)) by (intros; ring). nra. }
    pose proof (sum_sq_zero k (fun j => el z j - el x j) Z) as EQ.
    apply nth_ext with (d := 0) (d' := 0); [destruct SOL as [LX _]; lia|].
    intros j J. specialize (EQ j ltac:(lia)). cbn beta in EQ. unfold el in EQ. lra.
Qed.
Print Assumptions C65_ridge_minimises.

(** For lambda > 0 the system is symmetric positive definite, and so has a solution. *)
Theorem C65_ridge_definite : forall m k lambda A, 0 < lambda -> shaped m k A -> (1 <= m)%nat ->
  square k (ridge_matrix lambda A) /\
  (forall i j, (i < k)%nat -> (j < k)%nat -> entry (ridge_matrix lambda A) i j = entry (ridge_matrix lambda A) j i) /\
  (forall z : nat -> R, (exists j, (j < k)%nat /\ z j <> 0) ->
     0 < Rsum k (fun i => z i * Rsum k (fun j => entry (ridge_matrix lambda A) i j * z j))).
Proof.
  intros m k lambda A LAM S M. split; [|split].
  - assert (LC : length (columns A) = k) by (rewrite (columns_eq m k A S M), map_length, seq_length; easy).
    unfold ridge_matrix. rewrite LC. split; [now rewrite map_length, seq_length|].
    apply Forall_forall. intros row IN. apply in_map_iff in IN. destruct IN as (i & <- & _). now rewrite map_length, seq_length.
  - intros i j I J. rewrite !(ridge_entry m k) by easy. rewrite (Nat.eqb_sym j i). f_equal.
    apply Rsum_ext. intros. ring.
  - intros z (j0 & J0 & NZ).
    assert (EQ : Rsum k (fun i => z i * Rsum k (fun j => entry (ridge_matrix lambda A) i j * z j))
                 = Rsum m (fun r => mv A k z r * mv A k z r) + lambda * Rsum k (fun i => z i * z i)).
    { rewrite (Rsum_ext k _ (fun i => Rsum m (fun r => mv A k z r * (entry A r i * z i)) + lambda * (z i * z i))).
      2:{ intros i I. rewrite (Rsum_ext k _ (fun j => Rsum m (fun r => entry A r i * (entry A r j * z j)) + (if Nat.eqb i j then lambda * z j else 0))).
          2:{ intros j J. rewrite (ridge_entry m k) by easy. rewrite Rmult_plus_distr_r. f_equal.
              - rewrite Rmult_comm, <- sum_scal. apply Rsum_ext. intros. ring.
              - destruct (Nat.eqb i j); ring. }
          rewrite sum_plus, sum_single by easy. rewrite Rmult_plus_distr_l. f_equal; [|ring].
          rewrite <- sum_swap. rewrite <- sum_scal. apply Rsum_ext. intros r _. unfold mv. rewrite sum_scal. ring. }
      rewrite sum_plus, sum_scal, <- sum_swap. f_equal. apply Rsum_ext. intros r _. rewrite sum_scal. reflexivity. }
    rewrite EQ. assert (0 <= Rsum m (fun r => mv A k z r * mv A k z r)) by (apply Rsum_nonneg; intros; nra).
    assert (0 < Rsum k (fun i => z i * z i)).
    { assert (0 <= Rsum k (fun i => z i * z i)) by (apply Rsum_nonneg; intros; nra).
      destruct (Rle_lt_dec (Rsum k (fun i => z i * z i)) 0) as [Z|Z]; [|easy].
      exfalso. apply NZ. now apply (sum_sq_zero k z Z). }
    nra.
Qed.
Print Assumptions C65_ridge_definite.

(** ** C64 *)
Lemma soft_cases : forall lambda b, 0 <= lambda ->
  (lambda < b /\ soft lambda b = b - lambda) \/ (b < - lambda /\ soft lambda b = b + lambda) \/
  (- lambda <= b <= lambda /\ soft lambda b = 0).
Proof.
  intros lambda b L. unfold soft, nmax, n0. cbn [nsub nopp nltb nofZ Rnum].
  destruct (Rlt_bool_spec 0 (b - lambda)); destruct (Rlt_bool_spec 0 (- b - lambda)).
  - exfalso. lra.
  - left. split; lra.
  - right. left. split; lra.
  - right. right. split; lra.
Qed.

(** What a coefficient becomes. *)
Definition shrunk (lambda b s : R) : Prop :=
  0 <= s * b /\ Rabs s <= Rabs b /\ Rabs (b - s) <= lambda /\
  (Rabs b <= lambda -> s = 0) /\ (lambda <= Rabs b -> Rabs s = Rabs b - lambda) /\
  (lambda = 0 -> s = b) /\
  (* the only minimiser of the one-dimensional objective *)
  (forall x, (b - s) ^ 2 / 2 + lambda * Rabs s <= (b - x) ^ 2 / 2 + lambda * Rabs x) /\
  (forall x, (b - x) ^ 2 / 2 + lambda * Rabs x <= (b - s) ^ 2 / 2 + lambda * Rabs s -> x = s).

Lemma soft_shrunk : forall lambda b, 0 <= lambda -> shrunk lambda b (soft lambda b).
Proof.
  intros lambda b L.
  assert (MIN : forall x, (b - soft lambda b) ^ 2 / 2 + lambda * Rabs (soft lambda b) + (x - soft lambda b) ^ 2 / 2
                          <= (b - x) ^ 2 / 2 + lambda * Rabs x).
  { intros x. destruct (soft_cases lambda b L) as [[H ->]|[[H ->]|[H ->]]];
      [rewrite (Rabs_pos_eq (b - lambda)) by lra|rewrite (Rabs_left (b + lambda)) by lra|rewrite Rabs_R0];
      unfold Rabs; destruct (Rcase_abs x); nra. }
  unfold shrunk. repeat split.
  - destruct (soft_cases lambda b L) as [[H ->]|[[H ->]|[H ->]]]; nra.
  - destruct (soft_cases lambda b L) as [[H ->]|[[H ->]|[H ->]]]; unfold Rabs; repeat destruct (Rcase_abs _); lra.
  - destruct (soft_cases lambda b L) as [[H ->]|[[H ->]|[H ->]]]; unfold Rabs; repeat destruct (Rcase_abs _); lra.
  - intros K. destruct (soft_cases lambda b L) as [[H ->]|[[H ->]|[H ->]]]; unfold Rabs in K; destruct (Rcase_abs b); lra.
  - intros K. destruct (soft_cases lambda b L) as [[H ->]|[[H ->]|[H ->]]]; unfold Rabs in *; repeat destruct (Rcase_abs _); lra.
  - intros K. destruct (soft_cases lambda b L) as [[H ->]|[[H ->]|[H ->]]]; lra.
  - intros x. specialize (MIN x). pose proof (pow2_ge_0 (x - soft lambda b)). lra.
  - intros x K. specialize (MIN x). pose proof (pow2_ge_0 (x - soft lambda b)). nra.
Qed.

Theorem C64_lasso_soft_threshold : forall la lambda A y, 0 <= lambda ->
  exists beta coeffs, solve la LeastSquares A y = Ok beta /\ solve la (Lasso lambda) A y = Ok coeffs /\
    Forall2 (shrunk lambda) beta coeffs.
Proof.
  intros la lambda A y L. exists (la_svd la A y), (map (soft lambda) (la_svd la A y)).
  split; [reflexivity|]. split; [reflexivity|].
  induction (la_svd la A y) as [|b l IH]; constructor; [now apply soft_shrunk|easy].
Qed.
Print Assumptions C64_lasso_soft_threshold.

Example C64_ex : soft 1 (5/2) = 3/2 /\ soft 1 (-3) = -2 /\ soft 1 (1/2) = 0.
Proof.
  repeat split.
  - destruct (soft_cases 1 (5/2)) as [[H ->]|[[H ->]|[H ->]]]; lra.
  - destruct (soft_cases 1 (-3)) as [[H ->]|[[H ->]|[H ->]]]; lra.
  - destruct (soft_cases 1 (1/2)) as [[H ->]|[[H ->]|[H ->]]]; lra.
Qed.

(** Positive definite systems have a solution (elimination of the last unknown). *)
Lemma definite_solvable : forall n (M : nat -> nat -> R) (b : nat -> R),
  (forall z : nat -> R, (exists j, (j < n)%nat /\ z j <> 0) -> 0 < Rsum n (fun i => z i * Rsum n (fun j => M i j * z j))) ->
  exists x : nat -> R, forall i, (i < n)%nat -> Rsum n (fun j => M i j * x j) = b i.
Proof.
  induction n as [|n IH]; intros M b PD; [exists (fun _ => 0); intros; lia|].
  set (p := M n n).
  assert (PP : 0 < p).
  { specialize (PD (fun j => if Nat.eqb j n then 1 else 0)). cbn [Rsum] in PD. rewrite Nat.eqb_refl in PD.
    rewrite (Rsum_0 n) in PD. 2:{ intros j J. destruct (Nat.eqb_spec j n); [lia|ring]. }
    rewrite (Rsum_0 n) in PD. 2:{ intros j J. destruct (Nat.eqb_spec j n); [lia|ring]. }
    unfold p. assert (0 < 0 + 1 * (0 + M n n * 1)); [|lra]. apply PD. exists n. rewrite Nat.eqb_refl. split; [lia|lra]. }
  destruct (IH (fun i j => M i j - M i n * M n j / p) (fun i => b i - M i n * b n / p)) as (x & X).
  { intros z (j0 & J0 & NZ). set (w := Rsum n (fun j => M n j * z j)).
    set (z' := fun j => if Nat.eqb j n then - w / p else z j).
    assert (EZ : forall j, (j < n)%nat -> z' j = z j) by (intros j J; unfold z'; destruct (Nat.eqb_spec j n); [lia|easy]).
    assert (EN : z' n = - w / p) by (unfold z'; now rewrite Nat.eqb_refl).
    assert (H : 0 < Rsum (Datatypes.S n) (fun i => z' i * Rsum (Datatypes.S n) (fun j => M i j * z' j))).
    { apply PD. exists j0. split; [lia|]. now rewrite EZ. }
    cbn [Rsum] in H. rewrite EN in H.
    rewrite (Rsum_ext n (fun j => M n j * z' j) (fun j => M n j * z j)) in H by (intros j J; now rewrite EZ).
    fold w in H. fold p in H. replace (- w / p * (w + p * (- w / p))) with 0 in H by (field; lra).
    rewrite Rplus_0_r in H.
    rewrite (Rsum_ext n _ (fun i => z' i * (Rsum n (fun j => M i j * z' j) + M i n * (- w / p)))); [|intros i I].
    - exact H.
    - rewrite EZ by easy. f_equal.
      rewrite (Rsum_ext n (fun j => M i j * z' j) (fun j => M i j * z j)) by (intros j J; now rewrite EZ).
      rewrite (Rsum_ext n _ (fun j => M i j * z j + (- (M i n / p)) * (M n j * z j))) by (intros j J; field; lra).
      rewrite sum_plus, sum_scal. fold w. field. lra. }
  set (w := Rsum n (fun j => M n j * x j)).
  exists (fun j => if Nat.eqb j n then (b n - w) / p else x j). intros i I. cbn [Rsum]. rewrite Nat.eqb_refl.
  rewrite (Rsum_ext n _ (fun j => M i j * x j)) by (intros j J; destruct (Nat.eqb_spec j n); [lia|easy]).
  destruct (Nat.eq_dec i n) as [->|N].
  - fold w p. field. lra.
  - specialize (X i ltac:(lia)). cbn beta in X.
    rewrite (Rsum_ext n _ (fun j => M i j * x j + (- (M i n / p)) * (M n j * x j))) in X by (intros j J; field; lra).
    rewrite sum_plus, sum_scal in X. fold w in X.
    replace (Rsum n (fun j => M i j * x j)) with (b i - M i n * b n / p + M i n / p * w) by lra. field. lra.
Qed.

Theorem C65_ridge_solvable : forall m k lambda A y, 0 < lambda -> shaped m k A -> (1 <= m)%nat -> length y = m ->
  exists x, solves k (ridge_matrix lambda A) x (ridge_rhs A y).
Proof.
  intros m k lambda A y LAM S M LY. destruct (C65_ridge_definite m k lambda A LAM S M) as (_ & _ & PD).
  destruct (definite_solvable k (entry (ridge_matrix lambda A)) (el (ridge_rhs A y)) PD) as (x & X).
  exists (map x (seq 0 k)). split; [now rewrite map_length, seq_length|]. intros i I. rewrite <- (X i I).
  apply Rsum_ext. intros j J. unfold el at 1. now rewrite nth_map_seq.
Qed.
Print Assumptions C65_ridge_solvable.

(** A case: A = (1, 2), y = (1, 2), lambda = 1, so x = 5/6. *)
Example C65_ex : exists la : LinAlg R,
  solve la (Ridge 1) [[1]; [2]] [1; 2] = Ok [5 / 6] /\
  solves 1 (ridge_matrix 1 [[1]; [2]]) [5 / 6] (ridge_rhs [[1]; [2]] [1; 2]) /\
  ridge_objective 2 1 1 [[1]; [2]] [1; 2] [5 / 6] < ridge_objective 2 1 1 [[1]; [2]] [1; 2] [1].
Proof.
  exists (mkLinAlg (fun _ _ => []) (fun M b => [el b 0 / entry M 0 0])).
  assert (SH : shaped 2 1 [[1]; [2]]) by (split; [reflexivity|repeat constructor]).
  assert (EM : entry (ridge_matrix 1 [[1]; [2]]) 0 0 = 6) by (rewrite (ridge_entry 2 1) by auto; cbn; ring).
  assert (EB : el (ridge_rhs [[1]; [2]] [1; 2]) 0 = 5) by (rewrite (ridge_rhs_el 2 1) by auto; cbn; ring).
  split; [|split].
  - cbn [solve la_ldlt]. now rewrite EM, EB.
  - split; [reflexivity|]. intros i I. assert (i = 0)%nat as -> by lia. cbn [Rsum]. rewrite EM, EB. unfold el. cbn. field.
  - unfold ridge_objective, mv, entry, el. cbn. lra.
Qed.

(** ** C77.  Lasso regression and the lasso problem. *)

(** The least-squares coefficients satisfy the normal equations. *)
Definition least_squares (m k : nat) (A : list (list R)) (y beta : list R) : Prop :=
  length beta = k /\
  forall i, (i < k)%nat -> Rsum m (fun r => entry A r i * (mv A k (el beta) r - el y r)) = 0.
(** The columns of A are orthonormal. *)
Definition orthonormal (m k : nat) (A : list (list R)) : Prop :=
  forall i j, (i < k)%nat -> (j < k)%nat ->
    Rsum m (fun r => entry A r i * entry A r j) = if Nat.eqb i j then 1 else 0.

(** With orthonormal columns, moving from the coefficients beta to x costs |x - beta|^2. *)
Lemma ortho_gap : forall m k A y beta (x : nat -> R), orthonormal m k A -> least_squares m k A y beta ->
  Rsum m (fun r => (mv A k x r - el y r) ^ 2) =
  Rsum m (fun r => (mv A k (el beta) r - el y r) ^ 2) + Rsum k (fun j => (x j - el beta j) ^ 2).
Proof.
  intros m k A y beta x O [_ LS]. set (h := fun j => x j - el beta j). set (g := fun r => mv A k (el beta) r - el y r).
  assert (MX : forall r, mv A k x r - el y r = g r + mv A k h r).
  { intros r. unfold g, mv, h.
    rewrite (Rsum_ext k (fun j => entry A r j * (x j - el beta j)) (fun j => entry A r j * x j + (-1) * (entry A r j * el beta j)))
      by (intros; ring). rewrite sum_plus, sum_scal. ring. }
  rewrite (Rsum_ext m _ (fun r => g r ^ 2 + (2 * (g r * mv A k h r) + mv A k h r * mv A k h r))) by (intros; rewrite MX; ring).
  rewrite !sum_plus, !sum_scal.
  assert (CROSS : Rsum m (fun r => g r * mv A k h r) = 0).
  { rewrite (Rsum_ext m _ (fun r => Rsum k (fun j => h j * (entry A r j * g r)))).
    2:{ intros r _. unfold mv. rewrite <- sum_scal. apply Rsum_ext. intros. ring. }
    rewrite sum_swap. apply Rsum_0. intros j J. rewrite sum_scal. unfold g. rewrite (LS j J). ring. }
  assert (SQ : Rsum m (fun r => mv A k h r * mv A k h r) = Rsum k (fun j => h j ^ 2)).
  { rewrite (Rsum_ext m _ (fun r => Rsum k (fun i => h i * (entry A r i * mv A k h r)))).
    2:{ intros r _. unfold mv at 1. rewrite Rmult_comm, <- sum_scal. apply Rsum_ext. intros. ring. }
    rewrite sum_swap. apply Rsum_ext. intros i I. rewrite sum_scal.
    rewrite (Rsum_ext m _ (fun r => Rsum k (fun j => h j * (entry A r i * entry A r j)))).
    2:{ intros r _. unfold mv. rewrite <- sum_scal. apply Rsum_ext. intros. ring. }
    rewrite sum_swap. rewrite (Rsum_ext k _ (fun j => if Nat.eqb i j then h j else 0)).
    2:{ intros j J. rewrite sum_scal, O by easy. destruct (Nat.eqb i j); ring. }
    rewrite sum_single by easy. ring. }
  rewrite CROSS, SQ. unfold g, h. ring.
Qed.

Lemma Rsum_le : forall n f g, (forall j, (j < n)%nat -> f j <= g j) -> Rsum n f <= Rsum n g.
Proof.
  induction n as [|n IH]; intros f g H; cbn; [lra|]. specialize (IH f g ltac:(auto)). specialize (H n ltac:(lia)). lra.
Qed.

(** For orthonormal columns the result is a minimiser of the lasso objective.  Missing:
    general matrices, for which the claim is false ([C77_refuted]). *)
Theorem C77_orthonormal_partial : forall la m k lambda A y coeffs,
  0 <= lambda -> orthonormal m k A -> least_squares m k A y (la_svd la A y) ->
  solve la (Lasso lambda) A y = Ok coeffs ->
  forall z, lasso_objective m k lambda A y coeffs <= lasso_objective m k lambda A y z.
Proof.
  intros la m k lambda A y coeffs LAM O LS E z. cbn [solve] in E. injection E as <-.
  set (beta := la_svd la A y) in *. unfold lasso_objective. rewrite (ortho_gap m k A y beta (el (map (soft lambda) beta)) O LS), (ortho_gap m k A y beta (el z) O LS).
  assert (LB : length beta = k) by apply LS.
  assert (ES : forall j, (j < k)%nat -> el (map (soft lambda) beta) j = soft lambda (el beta j)).
  { intros j J. unfold el. rewrite (nth_indep _ 0 (soft lambda 0)) by (rewrite map_length; lia). apply map_nth. }
  assert (H : Rsum k (fun j => (el (map (soft lambda) beta) j - el beta j) ^ 2 / 2 + lambda * Rabs (el (map (soft lambda) beta) j))
            <= Rsum k (fun j => (el z j - el beta j) ^ 2 / 2 + lambda * Rabs (el z j))).
  { apply Rsum_le. intros j J. rewrite ES by easy.
    destruct (soft_shrunk lambda (el beta j) LAM) as (_ & _ & _ & _ & _ & _ & MIN & _). specialize (MIN (el z j)).
    replace ((soft lambda (el beta j) - el beta j) ^ 2) with ((el beta j - soft lambda (el beta j)) ^ 2) by ring.
    replace ((el z j - el beta j) ^ 2) with ((el beta j - el z j) ^ 2) by ring. exact MIN. }
  rewrite !sum_plus, !sum_scal in H.
  rewrite (Rsum_ext k (fun j => (el (map (soft lambda) beta) j - el beta j) ^ 2 / 2)
             (fun j => / 2 * (el (map (soft lambda) beta) j - el beta j) ^ 2)) in H by (intros; field).
  rewrite (Rsum_ext k (fun j => (el z j - el beta j) ^ 2 / 2) (fun j => / 2 * (el z j - el beta j) ^ 2)) in H by (intros; field).
  rewrite !sum_scal in H. lra.
Qed.
Print Assumptions C77_orthonormal_partial.

(** In general it is not: A = (2), y = (2), lambda = 1.  The least-squares coefficient is 1,
    the code returns 0, the minimiser is 3/4. *)
Theorem C77_refuted : exists (la : LinAlg R) A y (coeffs z : list R),
  least_squares 1 1 A y (la_svd la A y) /\ solve la (Lasso 1) A y = Ok coeffs /\
  lasso_objective 1 1 1 A y z < lasso_objective 1 1 1 A y coeffs.
Proof.
  exists (mkLinAlg (fun _ _ => [1]) (fun _ _ => [])), [[2]], [2], [0], [3 / 4]. split; [|split].
  - split; [reflexivity|]. intros i I. assert (i = 0)%nat as -> by lia. unfold mv, entry, el. cbn. ring.
  - cbn [solve la_svd map]. f_equal. f_equal. destruct (soft_cases 1 1) as [[H E]|[[H E]|[H E]]]; lra.
  - unfold lasso_objective, mv, entry, el. cbn. rewrite Rabs_R0, Rabs_pos_eq by lra. lra.
Qed.
Print Assumptions C77_refuted.

(** A case of the orthonormal theorem: the identity with y = (3, 1/2) and lambda = 1. *)
Example C77_ex : let A := [[1; 0]; [0; 1]] in
  orthonormal 2 2 A /\ least_squares 2 2 A [3; 1 / 2] [3; 1 / 2] /\
  solve (mkLinAlg (fun _ y => y) (fun _ _ => [])) (Lasso 1) A [3; 1 / 2] = Ok [2; 0].
Proof.
  split; [|split].
  - intros i j I J. destruct i as [|[|i]]; [| |lia]; (destruct j as [|[|j]]; [| |lia]); unfold entry, el; cbn; ring.
  - split; [reflexivity|]. intros i I. destruct i as [|[|i]]; [| |lia]; unfold mv, entry, el; cbn; ring.
  - cbn [solve la_svd map]. f_equal. f_equal; [|f_equal].
    + destruct (soft_cases 1 3) as [[H E]|[[H E]|[H E]]]; lra.
    + destruct (soft_cases 1 (1 / 2)) as [[H E]|[[H E]|[H E]]]; lra.
Qed.
