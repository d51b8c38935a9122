(** Properties C60-C63, C93: the regression bases. *)
From Coq Require Import List ZArith Bool Lia Reals Lra.
From Flocq Require Import Core BinarySingleNaN.
From Coquelicot Require Import Coquelicot.
From Verif Require Import M_Num M_Outcome M_Regression S_Numeric P_LinearSystem.
Import ListNotations.
Local Open Scope R_scope.

(** ** The columns as functions *)

(** Column n of a basis as a function of the state: its entry for the sample [x]. *)
Definition basis_column (b : Basis R) (n : nat) (x : R) : R :=
  match generate b [x] with Ok rows => entry rows 0 n | _ => 0 end.

(** The recursively defined families, from columns n and n+1. *)
Fixpoint col2 (f : Z -> R -> R -> R) (x : R) (n : nat) : R * R :=
  match n with
  | O => (1, x)
  | Datatypes.S n' => let '(p, q) := col2 f x n' in (q, f (Z.of_nat n + 1)%Z q p)
  end.
Definition col f x n := fst (col2 f x n).

Lemma col_0 : forall f x, col f x 0 = 1. Proof. reflexivity. Qed.
Lemma col_1 : forall f x, col f x 1 = x. Proof. reflexivity. Qed.
Lemma col_SS : forall f x n, col f x (Datatypes.S (Datatypes.S n)) =
  f (Z.of_nat n + 2)%Z (col f x (Datatypes.S n)) (col f x n).
Proof.
  intros. unfold col. cbn [col2]. destruct (col2 f x n) as [p q]. cbn [fst]. f_equal. lia.
Qed.

Lemma rec_cols_col : forall f x m n,
  rec_cols f m (Z.of_nat n + 2)%Z (col f x n) (col f x (Datatypes.S n)) =
  map (col f x) (seq (Datatypes.S (Datatypes.S n)) m).
Proof.
  intros f x. induction m as [|m IH]; intros n; cbn [rec_cols seq map]; [easy|].
  rewrite <- col_SS. f_equal. rewrite <- IH. f_equal. lia.
Qed.
Lemma rec_row_col : forall f k x, (1 <= k)%Z -> rec_row f k x = map (col f x) (seq 0 (Z.to_nat k)).
Proof.
  intros f k x H. unfold rec_row. destruct (Z.leb_spec k 1).
  - replace k with 1%Z by lia. reflexivity.
  - replace (Z.to_nat k) with (Datatypes.S (Datatypes.S (Z.to_nat (k - 2)))) by lia. cbn [seq map].
    rewrite col_0, col_1. f_equal. f_equal. apply (rec_cols_col f x _ 0).
Qed.

Lemma npow_pow : forall (x : R) n, npow x n = x ^ n.
Proof. intros x. induction n as [|n IH]; cbn; [reflexivity|]. now rewrite IH. Qed.

(** The four families. *)
Definition family (b : Basis R) : option (Z * (R -> nat -> R)) :=
  match b with
  | Monomial k => Some (k, fun x n => x ^ n)
  | Chebyshev k => Some (k, fun x => col (cheb_next x) x)
  | Legendre k => Some (k, fun x => col (leg_next x) x)
  | Laguerre k => Some (k, fun x => col (lag_next x) x)
  | CustomBasis _ => None
  end.

Lemma generate_family : forall b k phi xs, family b = Some (k, phi) -> (1 <= k <= INT_MAX)%Z ->
  generate b xs = Ok (map (fun x => map (phi x) (seq 0 (Z.to_nat k))) xs).
Proof.
  intros b k phi xs F K.
  destruct b; cbn [family] in F; try discriminate; injection F as -> <-; cbn [generate];
    (destruct (Z.leb_spec k INT_MAX); [|lia]); f_equal; apply map_ext; intros x;
    try (now apply rec_row_col; lia).
Qed.

Lemma el_map_seq : forall (g : nat -> R) n j, (j < n)%nat -> el (map g (seq 0 n)) j = g j.
Proof.
  intros g n j H. unfold el. rewrite (nth_indep _ 0 (g 0%nat)) by (rewrite map_length, seq_length; lia).
  rewrite map_nth, seq_nth by lia. reflexivity.
Qed.

Lemma column_family : forall b k phi n x, family b = Some (k, phi) -> (1 <= k <= INT_MAX)%Z ->
  (Z.of_nat n < k)%Z -> basis_column b n x = phi x n.
Proof.
  intros b k phi n x F K N. unfold basis_column. rewrite (generate_family b k phi [x] F K).
  unfold entry. cbn [map nth]. apply el_map_seq. lia.
Qed.

(** The matrix generated for a list of samples has one row per sample and column n is
    the column function evaluated at the samples. *)
Definition has_columns (b : Basis R) (k : Z) : Prop :=
  b = Monomial k \/ b = Chebyshev k \/ b = Legendre k \/ b = Laguerre k.
Lemma has_columns_family : forall b k, has_columns b k -> exists phi, family b = Some (k, phi).
Proof. intros b k [->|[->|[->| ->]]]; cbn; eauto. Qed.

Theorem basis_rows : forall b k xs, has_columns b k -> (1 <= k <= INT_MAX)%Z ->
  generate b xs = Ok (map (fun x => map (fun n => basis_column b n x) (seq 0 (Z.to_nat k))) xs).
Proof.
  intros b k xs H K. destruct (has_columns_family b k H) as (phi & F).
  rewrite (generate_family b k phi xs F K). f_equal. apply map_ext. intros x. apply map_ext_in.
  intros n IN. apply in_seq in IN. symmetry. apply (column_family b k); auto. lia.
Qed.
Print Assumptions basis_rows.

(** ** C60 *)
Lemma cheb_cos : forall t n, col (cheb_next (cos t)) (cos t) n = cos (INR n * t).
Proof.
  intros t. assert (B : forall n, col (cheb_next (cos t)) (cos t) n = cos (INR n * t) /\
    col (cheb_next (cos t)) (cos t) (Datatypes.S n) = cos (INR (Datatypes.S n) * t)).
  { induction n as [|n [I1 I2]].
    - rewrite col_0, col_1. cbn. rewrite Rmult_0_l, Rmult_1_l, cos_0. auto.
    - split; [easy|]. rewrite col_SS, I1, I2. unfold cheb_next, n2. cbn [nofZ nmul nsub Rnum].
      replace (INR (Datatypes.S (Datatypes.S n)) * t) with (INR (Datatypes.S n) * t + t) by (rewrite (S_INR (Datatypes.S n)); ring).
      replace (INR n * t) with (INR (Datatypes.S n) * t - t) by (rewrite (S_INR n); ring).
      rewrite cos_plus, cos_minus. ring. }
  intros n. apply B.
Qed.

Theorem C60_chebyshev : forall k n t, (1 <= k <= INT_MAX)%Z -> (Z.of_nat n < k)%Z ->
  basis_column (Chebyshev k) n (cos t) = cos (INR n * t).
Proof.
  intros k n t K N. rewrite (column_family _ k (fun x => col (cheb_next x) x)); auto. apply cheb_cos.
Qed.
Print Assumptions C60_chebyshev.

Theorem C60_bounded : forall k n x, (1 <= k <= INT_MAX)%Z -> (Z.of_nat n < k)%Z -> -1 <= x <= 1 ->
  -1 <= basis_column (Chebyshev k) n x <= 1.
Proof.
  intros k n x K N H. rewrite <- (cos_acos x H). rewrite C60_chebyshev by easy. apply COS_bound.
Qed.
Print Assumptions C60_bounded.

Example C60_ex : basis_column (Chebyshev 4) 3 (1/2) = -1.
Proof.
  rewrite (column_family _ 4 (fun x => col (cheb_next x) x)); auto; [|unfold INT_MAX; lia|lia].
  rewrite !col_SS, col_0, col_1. unfold cheb_next, n2. cbn. lra.
Qed.

(** ** C61 *)
Definition P (n : nat) (x : R) : R := col (leg_next x) x n.
Lemma P_rec : forall n x, (INR n + 2) * P (Datatypes.S (Datatypes.S n)) x =
  (2 * INR n + 3) * x * P (Datatypes.S n) x - (INR n + 1) * P n x.
Proof.
  intros n x. unfold P. rewrite col_SS. unfold leg_next. cbn [nofZ nmul nsub ndiv Rnum].
  rewrite plus_IZR, !mult_IZR, !minus_IZR, plus_IZR, <- INR_IZR_INZ.
  pose proof (pos_INR n). field. lra.
Qed.
Lemma P_SS : forall n x, P (Datatypes.S (Datatypes.S n)) x =
  ((2 * INR n + 3) * x * P (Datatypes.S n) x - (INR n + 1) * P n x) / (INR n + 2).
Proof. intros n x. rewrite <- P_rec. pose proof (pos_INR n). field. lra. Qed.

(** First and second derivatives. *)
Fixpoint D (n : nat) (x : R) : R :=
  match n with O => 0 | Datatypes.S m => x * D m x + INR (Datatypes.S m) * P m x end.
Fixpoint E (n : nat) (x : R) : R :=
  match n with O => 0 | Datatypes.S m => D m x + x * E m x + INR (Datatypes.S m) * D m x end.

Lemma D_back : forall n x, D n x = x * D (Datatypes.S n) x - (INR n + 1) * P (Datatypes.S n) x.
Proof.
  induction n as [|n IH]; intros x.
  - cbn. unfold P, col. cbn. ring.
  - specialize (IH x).
    assert (B : D (Datatypes.S n) x = x * D n x + (INR n + 1) * P n x) by (rewrite <- S_INR; reflexivity).
    change (D (Datatypes.S (Datatypes.S n)) x) with (x * D (Datatypes.S n) x + INR (Datatypes.S (Datatypes.S n)) * P (Datatypes.S n) x).
    rewrite (S_INR (Datatypes.S n)), (S_INR n). pose proof (P_rec n x) as Rc.
    assert (Q : D (Datatypes.S n) x = x * (x * D (Datatypes.S n) x - (INR n + 1) * P (Datatypes.S n) x) + (INR n + 1) * P n x)
      by (rewrite <- IH; exact B).
    replace (INR n + 1 + 1) with (INR n + 2) by ring.
    replace (x * (x * D (Datatypes.S n) x + (INR n + 2) * P (Datatypes.S n) x) - (INR n + 2) * P (Datatypes.S (Datatypes.S n)) x)
      with (x * (x * D (Datatypes.S n) x + (INR n + 2) * P (Datatypes.S n) x) - ((2 * INR n + 3) * x * P (Datatypes.S n) x - (INR n + 1) * P n x))
      by (rewrite <- Rc; ring). lra.
Qed.

(** (1 - x^2) P_n' = n (P_(n-1) - x P_n) *)
Lemma D_P : forall n x, (1 - x * x) * D (Datatypes.S n) x = (INR n + 1) * (P n x - x * P (Datatypes.S n) x).
Proof.
  intros n x. pose proof (D_back n x) as B.
  assert (Q : D (Datatypes.S n) x = x * D n x + (INR n + 1) * P n x) by (rewrite <- S_INR; reflexivity).
  assert (Q' : D (Datatypes.S n) x = x * (x * D (Datatypes.S n) x - (INR n + 1) * P (Datatypes.S n) x) + (INR n + 1) * P n x)
    by (rewrite <- B; exact Q). lra.
Qed.

Ltac drv := repeat match goal with
  | H : is_derive ?f ?x ?l |- context [Derive ?g ?x] =>
      change (Derive g x) with (Derive f x); rewrite (is_derive_unique _ _ _ H) end.

Lemma P_derive : forall n x, is_derive (P n) x (D n x).
Proof.
  assert (B : forall n, (forall x, is_derive (P n) x (D n x)) /\ (forall x, is_derive (P (Datatypes.S n)) x (D (Datatypes.S n) x))).
  { induction n as [|n [I1 I2]].
    - split; intros x.
      + apply (is_derive_ext (fun _ => 1)); [easy|]. auto_derive; easy.
      + apply (is_derive_ext (fun x => x)); [easy|]. cbn. unfold P, col. cbn. auto_derive; [easy|]. ring.
    - split; [easy|]. intros x.
      apply (is_derive_ext (fun x => ((2 * INR n + 3) * x * P (Datatypes.S n) x - (INR n + 1) * P n x) / (INR n + 2))).
      { intros t. now rewrite P_SS. }
      pose proof (pos_INR n).
      assert (Q : D (Datatypes.S (Datatypes.S n)) x =
        ((2 * INR n + 3) * (P (Datatypes.S n) x + x * D (Datatypes.S n) x) - (INR n + 1) * D n x) / (INR n + 2)).
      { rewrite (D_back n x).
        change (D (Datatypes.S (Datatypes.S n)) x) with (x * D (Datatypes.S n) x + INR (Datatypes.S (Datatypes.S n)) * P (Datatypes.S n) x).
        rewrite (S_INR (Datatypes.S n)), (S_INR n). field. lra. }
      rewrite Q. auto_derive; [repeat split; eexists; eauto|].
      specialize (I1 x). specialize (I2 x). drv. field. lra. }
  intros n. apply B.
Qed.

Lemma D_derive : forall n x, is_derive (D n) x (E n x).
Proof.
  induction n as [|n IH]; intros x.
  - apply (is_derive_ext (fun _ => 0)); [easy|]. cbn. auto_derive; easy.
  - apply (is_derive_ext (fun x => x * D n x + INR (Datatypes.S n) * P n x)); [easy|].
    change (E (Datatypes.S n) x) with (D n x + x * E n x + INR (Datatypes.S n) * D n x).
    pose proof (P_derive n x) as I1. auto_derive; [repeat split; eexists; eauto|].
    specialize (IH x). drv. fold (INR (Datatypes.S n)). rewrite (S_INR n). destruct n; cbn [INR]; ring.
Qed.

Lemma legendre_ode : forall n x,
  (1 - x * x) * E n x - 2 * x * D n x + INR n * (INR n + 1) * P n x = 0.
Proof.
  intros [|n] x.
  - cbn. ring.
  - assert (F1 : is_derive (fun x => (1 - x * x) * D (Datatypes.S n) x) x
               (- (2 * x) * D (Datatypes.S n) x + (1 - x * x) * E (Datatypes.S n) x)).
    { pose proof (D_derive (Datatypes.S n) x) as I1. revert I1.
      generalize (D (Datatypes.S n)) (E (Datatypes.S n) x). intros f l I1.
      auto_derive; [repeat split; eexists; eauto|]. drv. ring. }
    assert (F2 : is_derive (fun x => (1 - x * x) * D (Datatypes.S n) x) x
               ((INR n + 1) * (D n x - P (Datatypes.S n) x - x * D (Datatypes.S n) x))).
    { apply (is_derive_ext (fun x => (INR n + 1) * (P n x - x * P (Datatypes.S n) x))).
      { intros t. now rewrite D_P. }
      pose proof (P_derive n x) as I1. pose proof (P_derive (Datatypes.S n) x) as I2.
      auto_derive; [repeat split; eexists; eauto|].
      drv. ring. }
    apply is_derive_unique in F1. apply is_derive_unique in F2. rewrite F1 in F2.
    pose proof (D_back n x) as B. rewrite B in F2. rewrite S_INR. nra.
Qed.

Lemma P_one : forall n, P n 1 = 1.
Proof.
  assert (B : forall n, P n 1 = 1 /\ P (Datatypes.S n) 1 = 1).
  { induction n as [|n [I1 I2]]; [split; reflexivity|]. split; [easy|].
    rewrite P_SS, I1, I2. pose proof (pos_INR n). field. lra. }
  intros n. apply B.
Qed.
Lemma P_parity : forall n x, P n (- x) = (-1) ^ n * P n x.
Proof.
  assert (B : forall n x, P n (- x) = (-1) ^ n * P n x /\ P (Datatypes.S n) (- x) = (-1) ^ (Datatypes.S n) * P (Datatypes.S n) x).
  { induction n as [|n IH]; intros x.
    - unfold P, col. cbn. split; ring.
    - destruct (IH x) as [I1 I2]. split; [easy|].
      rewrite !P_SS, I1, I2. pose proof (pos_INR n). cbn [pow]. field. lra. }
  intros n x. apply B.
Qed.

Theorem C61_legendre : forall k n, (1 <= k <= INT_MAX)%Z -> (Z.of_nat n < k)%Z ->
  let p := basis_column (Legendre k) n in
  (forall x, ex_derive p x /\ ex_derive (Derive p) x /\
     (1 - x ^ 2) * Derive (Derive p) x - 2 * x * Derive p x + INR n * (INR n + 1) * p x = 0) /\
  p 1 = 1 /\ (forall x, p (- x) = (-1) ^ n * p x).
Proof.
  intros k n K N p.
  assert (EQ : forall x, p x = P n x) by (intros x; apply (column_family _ k (fun x => col (leg_next x) x)); auto).
  assert (P1 : forall x, is_derive p x (D n x)).
  { intros x. apply (is_derive_ext (P n)); [easy|]. apply P_derive. }
  assert (DQ : forall x, Derive p x = D n x) by (intros x; apply is_derive_unique, P1).
  assert (P2 : forall x, is_derive (Derive p) x (E n x)).
  { intros x. apply (is_derive_ext (D n)); [easy|]. apply D_derive. }
  split; [|split].
  - intros x. split; [eexists; apply P1|]. split; [eexists; apply P2|].
    rewrite (is_derive_unique _ _ _ (P2 x)), DQ, EQ. pose proof (legendre_ode n x). rewrite <- H. ring.
  - rewrite EQ. apply P_one.
  - intros x. rewrite !EQ. apply P_parity.
Qed.
Print Assumptions C61_legendre.

Example C61_ex : forall x, basis_column (Legendre 3) 2 x = (3 * x ^ 2 - 1) / 2.
Proof.
  intros x. rewrite (column_family _ 3 (fun x => col (leg_next x) x)); auto; [|unfold INT_MAX; lia|lia].
  change (P 2 x = (3 * x ^ 2 - 1) / 2). rewrite P_SS. unfold P. rewrite col_0, col_1. cbn [INR]. field.
Qed.

(** ** C62.  Column 1 is x where the Laguerre polynomial is 1 - x; every column but the
    first is then wrong: at 0 column n is 1 - (1 + 1/2 + ... + 1/n) instead of 1. *)
Lemma lag_zero : forall n, col (lag_next 0) 0 n = 1 - Rsum n (fun j => / (INR j + 1)).
Proof.
  assert (B : forall n, col (lag_next 0) 0 n = 1 - Rsum n (fun j => / (INR j + 1)) /\
     col (lag_next 0) 0 (Datatypes.S n) = 1 - Rsum (Datatypes.S n) (fun j => / (INR j + 1))).
  { induction n as [|n [I1 I2]].
    - unfold col. cbn. split; [ring|field].
    - split; [easy|]. rewrite col_SS, I1, I2. unfold lag_next. cbn [nofZ nmul nsub ndiv Rnum Rsum].
      rewrite plus_IZR, !mult_IZR, !minus_IZR, plus_IZR, <- INR_IZR_INZ.
      rewrite (S_INR n). pose proof (pos_INR n). field. lra. }
  intros n. apply B.
Qed.

Theorem C62_value_at_zero : forall k n, (1 <= k <= INT_MAX)%Z -> (Z.of_nat n < k)%Z ->
  basis_column (Laguerre k) n 0 = 1 - Rsum n (fun j => / (INR j + 1)).
Proof. intros k n K N. rewrite (column_family _ k (fun x => col (lag_next x) x)); auto. apply lag_zero. Qed.
Print Assumptions C62_value_at_zero.

Theorem C62_wrong_columns : forall k n, (1 <= k <= INT_MAX)%Z -> (1 <= n)%nat -> (Z.of_nat n < k)%Z ->
  basis_column (Laguerre k) n 0 < 1.
Proof.
  intros k n K N H. rewrite C62_value_at_zero by easy. destruct n as [|n]; [lia|]. cbn [Rsum].
  assert (0 <= Rsum n (fun j => / (INR j + 1))).
  { apply Rsum_nonneg. intros j _. apply Rlt_le, Rinv_0_lt_compat. pose proof (pos_INR j). lra. }
  assert (0 < / (INR n + 1)) by (apply Rinv_0_lt_compat; pose proof (pos_INR n); lra). lra.
Qed.
Print Assumptions C62_wrong_columns.

Theorem C62_refuted : exists k n, (1 <= k <= INT_MAX)%Z /\ (Z.of_nat n < k)%Z /\
  basis_column (Laguerre k) n 0 <> 1.
Proof.
  exists 2%Z, 1%nat. assert (K : (1 <= 2 <= INT_MAX)%Z) by (unfold INT_MAX; lia).
  split; [exact K|]. split; [lia|].
  assert (basis_column (Laguerre 2) 1 0 < 1) by (apply C62_wrong_columns; auto; lia). lra.
Qed.
Print Assumptions C62_refuted.

(** What is right: column 0, and the recurrence of the Laguerre polynomials between three
    consecutive columns.  Missing: column 1. *)
Theorem C62_recurrence_partial : forall k, (1 <= k <= INT_MAX)%Z ->
  (forall x, basis_column (Laguerre k) 0 x = 1) /\
  (forall n x, (Z.of_nat n + 2 < k)%Z ->
     (INR n + 2) * basis_column (Laguerre k) (n + 2) x =
     (2 * INR n + 3 - x) * basis_column (Laguerre k) (n + 1) x - (INR n + 1) * basis_column (Laguerre k) n x).
Proof.
  intros k K. split.
  - intros x. rewrite (column_family _ k (fun x => col (lag_next x) x)); auto. lia.
  - intros n x N. rewrite !(column_family _ k (fun x => col (lag_next x) x)) by (auto; lia).
    replace (n + 2)%nat with (Datatypes.S (Datatypes.S n)) by lia. replace (n + 1)%nat with (Datatypes.S n) by lia.
    rewrite col_SS. unfold lag_next. cbn [nofZ nmul nsub ndiv Rnum].
    rewrite plus_IZR, !mult_IZR, !minus_IZR, plus_IZR, <- INR_IZR_INZ. pose proof (pos_INR n). field. lra.
Qed.
Print Assumptions C62_recurrence_partial.

Example C62_ex : basis_column (Laguerre 3) 2 0 = - (1 / 2).
Proof. rewrite C62_value_at_zero; [cbn; field|unfold INT_MAX; lia|lia]. Qed.

(** ** C63 *)

(** [f] is a polynomial of degree below [n] / of degree [n] with leading coefficient [l]. *)
Definition below (n : nat) (f : R -> R) : Prop := exists d, forall x, f x = Rsum n (fun j => d j * x ^ j).
Definition lead (n : nat) (l : R) (f : R -> R) : Prop :=
  exists g, below n g /\ forall x, f x = l * x ^ n + g x.

Lemma Rsum_plus : forall n f g, Rsum n (fun j => f j + g j) = Rsum n f + Rsum n g.
Proof. induction n as [|n IH]; intros; cbn; [ring|]. rewrite IH. ring. Qed.
Lemma Rsum_scal : forall n c f, Rsum n (fun j => c * f j) = c * Rsum n f.
Proof. induction n as [|n IH]; intros; cbn; [ring|]. rewrite IH. ring. Qed.

Lemma below_ext : forall n f g, (forall x, f x = g x) -> below n f -> below n g.
Proof. intros n f g E (d & H). exists d. intros x. now rewrite <- E. Qed.
Lemma below_S : forall n f, below n f -> below (Datatypes.S n) f.
Proof.
  intros n f (d & H). exists (fun j => if Nat.eqb j n then 0 else d j). intros x. rewrite H. cbn [Rsum].
  rewrite Nat.eqb_refl, Rmult_0_l, Rplus_0_r. apply Rsum_ext. intros j J.
  destruct (Nat.eqb_spec j n); [lia|easy].
Qed.
Lemma below_plus : forall n f g, below n f -> below n g -> below n (fun x => f x + g x).
Proof.
  intros n f g (d & H) (e & K). exists (fun j => d j + e j). intros x. rewrite H, K, <- Rsum_plus.
  apply Rsum_ext. intros j _. ring.
Qed.
Lemma below_scal : forall n c f, below n f -> below n (fun x => c * f x).
Proof.
  intros n c f (d & H). exists (fun j => c * d j). intros x. rewrite H, <- Rsum_scal.
  apply Rsum_ext. intros j _. ring.
Qed.
Lemma below_mon : forall n, below (Datatypes.S n) (fun x => x ^ n).
Proof.
  intros n. exists (fun j => if Nat.eqb j n then 1 else 0). intros x. cbn [Rsum].
  rewrite Nat.eqb_refl, Rsum_0; [ring|]. intros j J. destruct (Nat.eqb_spec j n); [lia|ring].
Qed.
Lemma below_0 : forall n, below n (fun _ => 0).
Proof. intros n. exists (fun _ => 0). intros x. symmetry. apply Rsum_0. intros. ring. Qed.
Lemma below_shift : forall n f, below n f -> below (Datatypes.S n) (fun x => x * f x).
Proof.
  induction n as [|n IH]; intros f (d & H).
  - apply (below_ext _ (fun _ => 0)); [|apply below_0]. intros x. rewrite H. cbn. ring.
  - apply (below_ext _ (fun x => x * Rsum n (fun j => d j * x ^ j) + d n * x ^ (Datatypes.S n))).
    { intros x. rewrite H. cbn [Rsum pow]. ring. }
    apply below_plus.
    + apply below_S. apply (IH (fun x => Rsum n (fun j => d j * x ^ j))). now exists d.
    + apply below_scal, below_mon.
Qed.
Lemma lead_below : forall n l f, lead n l f -> below (Datatypes.S n) f.
Proof.
  intros n l f (g & B & H). apply (below_ext _ (fun x => l * x ^ n + g x)); [easy|].
  apply below_plus; [apply below_scal, below_mon|now apply below_S].
Qed.

Lemma lead_step : forall n a b c l l' f g, lead (Datatypes.S n) l f -> lead n l' g ->
  lead (Datatypes.S (Datatypes.S n)) (a * l) (fun x => (a * x + b) * f x + c * g x).
Proof.
  intros n a b c l l' f g F G. assert (BF := lead_below _ _ _ F). assert (BG := lead_below _ _ _ G).
  destruct F as (f' & B & H).
  exists (fun x => a * (x * f' x) + (b * f x + c * g x)). split.
  - apply below_plus; [apply below_scal; now apply below_shift|].
    apply below_plus; apply below_scal; [easy|now apply below_S].
  - intros x. rewrite H. cbn [pow]. ring.
Qed.

(** A family with one polynomial of every degree. *)
Definition graded (phi : nat -> R -> R) : Prop := forall n, exists l, l <> 0 /\ lead n l (phi n).

Lemma graded_rec : forall phi a b c,
  (forall x, phi 0%nat x = 1) -> (forall x, phi 1%nat x = x) -> (forall n, a n <> 0) ->
  (forall n x, phi (Datatypes.S (Datatypes.S n)) x = (a n * x + b n) * phi (Datatypes.S n) x + c n * phi n x) ->
  graded phi.
Proof.
  intros phi a b c P0 P1 A PS.
  assert (B : forall n, (exists l, l <> 0 /\ lead n l (phi n)) /\ (exists l, l <> 0 /\ lead (Datatypes.S n) l (phi (Datatypes.S n)))).
  { induction n as [|n [(l & L & I1) (l' & L' & I2)]].
    - split; exists 1; (split; [lra|]); exists (fun _ => 0); (split; [apply below_0|]); intros x.
      + rewrite P0. cbn. ring.
      + rewrite P1. cbn. ring.
    - split; [eauto|]. exists (a n * l'). split; [now apply Rmult_integral_contrapositive|].
      pose proof (lead_step n (a n) (b n) (c n) l' l _ _ I2 I1) as (g & G & H).
      exists g. split; [easy|]. intros x. rewrite PS. apply H. }
  intros n. apply B.
Qed.

Lemma graded_span : forall phi, graded phi -> forall k,
  (forall c, below k (fun x => Rsum k (fun n => c n * phi n x))) /\
  (forall d, exists c, forall x, Rsum k (fun n => c n * phi n x) = Rsum k (fun j => d j * x ^ j)).
Proof.
  intros phi G. induction k as [|k [I1 I2]].
  - split; [intros c; apply below_0|intros d; exists (fun _ => 0); easy].
  - destruct (G k) as (l & L & F). split.
    + intros c. cbn [Rsum]. apply below_plus; [apply below_S, I1|]. apply below_scal. now apply (lead_below k l).
    + intros d. destruct F as (g & (e & B) & H).
      destruct (I2 (fun j => d j - d k / l * e j)) as (c & C).
      exists (fun n => if Nat.eqb n k then d k / l else c n). intros x. cbn [Rsum]. rewrite Nat.eqb_refl.
      rewrite (Rsum_ext k _ (fun n => c n * phi n x)).
      2:{ intros j J. destruct (Nat.eqb_spec j k); [lia|easy]. }
      rewrite C, H, B.
      rewrite (Rsum_ext k (fun j => (d j - d k / l * e j) * x ^ j) (fun j => d j * x ^ j + (- (d k / l)) * (e j * x ^ j)))
        by (intros; ring).
      rewrite Rsum_plus, Rsum_scal. field. easy.
Qed.

Lemma families_graded : forall b k phi, family b = Some (k, phi) -> graded (fun n x => phi x n).
Proof.
  intros b k phi F. destruct b; cbn [family] in F; try discriminate; injection F as -> <-.
  - intros n. exists 1. split; [lra|]. exists (fun _ => 0). split; [apply below_0|]. intros x. ring.
  - apply (graded_rec _ (fun _ => 2) (fun _ => 0) (fun _ => -1)); try (intros; reflexivity).
    + intros _. lra.
    + intros n x. rewrite col_SS. unfold cheb_next, n2. cbn [nofZ nmul nsub Rnum]. ring.
  - apply (graded_rec _ (fun n => (2 * INR n + 3) / (INR n + 2)) (fun _ => 0) (fun n => - ((INR n + 1) / (INR n + 2))));
      try (intros; reflexivity).
    + intros n. pose proof (pos_INR n). apply Rmult_integral_contrapositive. split; [lra|]. apply Rinv_neq_0_compat. lra.
    + intros n x. change (P (Datatypes.S (Datatypes.S n)) x = ((2 * INR n + 3) / (INR n + 2) * x + 0) * P (Datatypes.S n) x
        + - ((INR n + 1) / (INR n + 2)) * P n x). rewrite P_SS. pose proof (pos_INR n). field. lra.
  - apply (graded_rec _ (fun n => - / (INR n + 2)) (fun n => (2 * INR n + 3) / (INR n + 2)) (fun n => - ((INR n + 1) / (INR n + 2))));
      try (intros; reflexivity).
    + intros n. pose proof (pos_INR n). apply Ropp_neq_0_compat, Rinv_neq_0_compat. lra.
    + intros n x. rewrite col_SS. unfold lag_next. cbn [nofZ nmul nsub ndiv Rnum].
      rewrite plus_IZR, !mult_IZR, !minus_IZR, plus_IZR, <- INR_IZR_INZ. pose proof (pos_INR n). field. lra.
Qed.

(** Every combination of the k columns is a polynomial of degree below k, and every such
    polynomial is a combination of the columns. *)
Theorem C63_span : forall b k, has_columns b k -> (1 <= k <= INT_MAX)%Z ->
  let K := Z.to_nat k in
  (forall c, exists d, forall x,
     Rsum K (fun n => c n * basis_column b n x) = Rsum K (fun j => d j * x ^ j)) /\
  (forall d, exists c, forall x,
     Rsum K (fun n => c n * basis_column b n x) = Rsum K (fun j => d j * x ^ j)).
Proof.
  intros b k H KB K. destruct (has_columns_family b k H) as (phi & F).
  destruct (graded_span _ (families_graded b k phi F) K) as [S1 S2].
  assert (EQ : forall c x, Rsum K (fun n => c n * basis_column b n x) = Rsum K (fun n => c n * phi x n)).
  { intros c x. apply Rsum_ext. intros j J. now rewrite (column_family b k phi) by (auto; lia). }
  split.
  - intros c. destruct (S1 c) as (d & E). exists d. intros x. now rewrite EQ.
  - intros d. destruct (S2 d) as (c & E). exists c. intros x. now rewrite EQ.
Qed.
Print Assumptions C63_span.

(** Hence the fitted values reachable with one basis are those reachable with any other
    basis with as many functions, for all samples. *)
Theorem C63_same_fits : forall b b' k xs rows rows', has_columns b k -> has_columns b' k -> (1 <= k <= INT_MAX)%Z ->
  generate b xs = Ok rows -> generate b' xs = Ok rows' ->
  forall c, length c = Z.to_nat k -> exists c', length c' = Z.to_nat k /\
    map (fun row => dot row c) rows = map (fun row => dot row c') rows'.
Proof.
  intros b b' k xs rows rows' H H' KB G G' c L.
  rewrite (basis_rows b k xs H KB) in G. injection G as <-.
  rewrite (basis_rows b' k xs H' KB) in G'. injection G' as <-.
  destruct (C63_span b k H KB) as [S1 _]. destruct (C63_span b' k H' KB) as [_ S2].
  destruct (S1 (el c)) as (d & D). destruct (S2 d) as (c' & C).
  assert (DOT : forall (g : nat -> R) n s (v : list R), length v = n ->
     fold_left Rplus (map (fun p => nmul (fst p) (snd p)) (combine (map g (seq s n)) v)) 0
       = Rsum n (fun j => el v j * g (s + j)%nat)).
  { intros g. assert (FL : forall l a, fold_left Rplus l a = a + fold_left Rplus l 0).
    { induction l as [|y l IH]; intros a; cbn; [ring|]. rewrite (IH (a + y)), (IH (0 + y)). ring. }
    induction n as [|n IH]; intros s [|y v] E; try discriminate; cbn [seq map combine fold_left]; [easy|].
    rewrite FL, (IH (Datatypes.S s) v) by (cbn in E; lia). change (Datatypes.S n) with (1 + n)%nat. rewrite Rsum_app. cbn [Rsum fst snd nmul Rnum].
    rewrite Nat.add_0_r. replace (el (y :: v) 0) with y by reflexivity.
    rewrite (Rsum_ext n (fun j => el (y :: v) (1 + j) * g (s + (1 + j))%nat) (fun j => el v j * g (Datatypes.S s + j)%nat)).
    - ring.
    - intros j _. f_equal. f_equal. lia. }
  exists (map c' (seq 0 (Z.to_nat k))). split; [now rewrite map_length, seq_length|].
  rewrite !map_map. apply map_ext. intros x. unfold dot, nsum. change (n0 : R) with 0. cbn [nadd Rnum].
  rewrite !DOT by (rewrite ?map_length, ?seq_length; easy).
  rewrite D, <- C. apply Rsum_ext. intros j J. now rewrite el_map_seq.
Qed.
Print Assumptions C63_same_fits.

(** A case: x^2 in the Laguerre basis with three functions; its columns are 1, x and
    ((3 - x) x - 1) / 2. *)
Example C63_ex : exists c, forall x,
  Rsum 3 (fun n => c n * basis_column (Laguerre 3) n x) = x ^ 2.
Proof.
  destruct (C63_span (Laguerre 3) 3) as [_ S]; [unfold has_columns; auto|unfold INT_MAX; lia|].
  destruct (S (fun j => if Nat.eqb j 2 then 1 else 0)) as (c & C). exists c. intros x.
  specialize (C x). change (Z.to_nat 3) with 3%nat in C. rewrite C. cbn [Rsum Nat.eqb pow]. ring.
Qed.

(** ** C93: which regression strategies can be built *)
Theorem C93_basis : forall b k xs, has_columns b k -> (k <= INT_MAX)%Z ->
  forall mk, mk k = b ->
  if (1 <=? k)%Z
  then Basis_ctor mk k = Ok b /\
       exists rows, generate b xs = Ok rows /\ length rows = length xs /\ forall row, In row rows -> length row = Z.to_nat k
  else Basis_ctor mk k = Throw InvalidArgument.
Proof.
  intros b k xs H K mk M. unfold Basis_ctor. destruct (Z.leb_spec 1 k) as [L|L], (Z.leb_spec k 0); try lia; [|easy].
  split; [now rewrite M|]. eexists. split; [apply (basis_rows b k xs H); lia|]. split; [now rewrite map_length|].
  intros row I. apply in_map_iff in I as (x & <- & _). now rewrite map_length, seq_length.
Qed.
Print Assumptions C93_basis.
Example C93_ex : Basis_ctor (@Laguerre R) 3 = Ok (Laguerre 3) /\ Basis_ctor (@Laguerre R) 0 = Throw InvalidArgument.
Proof. split; reflexivity. Qed.

Theorem C93_penalty_partial : forall lambda : R,
  (0 <= lambda -> Ridge_ctor lambda = Ok (Ridge lambda) /\ Lasso_ctor lambda = Ok (Lasso lambda)) /\
  (lambda < 0 -> Ridge_ctor lambda = Throw InvalidArgument /\ Lasso_ctor lambda = Throw InvalidArgument).
Proof.
  intros lambda. unfold Ridge_ctor, Lasso_ctor, n0. cbn [nltb nofZ Rnum].
  split; intros H; [rewrite Raux.Rlt_bool_false by easy|rewrite Raux.Rlt_bool_true by easy]; now split.
Qed.
Print Assumptions C93_penalty_partial.

(** The test lets NaN through. *)
Theorem C93_refuted : forall fexp flog, exists lambda : b64, BinarySingleNaN.is_nan lambda = true /\
  @Ridge_ctor _ (B64 fexp flog) lambda = Ok (Ridge lambda) /\ @Lasso_ctor _ (B64 fexp flog) lambda = Ok (Lasso lambda).
Proof. intros. exists BinarySingleNaN.B754_nan. repeat split. Qed.
Print Assumptions C93_refuted.
