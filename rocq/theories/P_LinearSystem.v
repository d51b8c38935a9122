(** Property C59: the Thomas algorithm. *)
From Coq Require Import List ZArith Bool Lia Reals Lra.
From Verif Require Import M_Num M_Outcome M_Numeric S_Numeric L_Numeric.
Import ListNotations.
Local Open Scope R_scope.

(** ** Sums *)
Lemma Rsum_ext : forall n f g, (forall j, (j < n)%nat -> f j = g j) -> Rsum n f = Rsum n g.
Proof. induction n as [|n IH]; intros f g H; cbn; [easy|]. rewrite (IH f g), (H n); auto. Qed.
Lemma Rsum_0 : forall n f, (forall j, (j < n)%nat -> f j = 0) -> Rsum n f = 0.
Proof. induction n as [|n IH]; intros f H; cbn; [easy|]. rewrite (IH f), (H n); auto. lra. Qed.
Lemma Rsum_app : forall p q f, Rsum (p + q) f = Rsum p f + Rsum q (fun j => f (p + j)%nat).
Proof.
  intros p q f. induction q as [|q IH]; cbn [Rsum].
  - rewrite Nat.add_0_r. lra.
  - rewrite Nat.add_succ_r. cbn [Rsum]. rewrite IH. lra.
Qed.
Lemma Rsum_nonneg : forall n f, (forall j, (j < n)%nat -> 0 <= f j) -> 0 <= Rsum n f.
Proof. induction n as [|n IH]; intros f H; cbn; [lra|]. specialize (IH f). pose proof (H n). assert (0 <= Rsum n f) by auto. specialize (H0 ltac:(lia)). lra. Qed.

(** A sum whose terms vanish away from i. *)
Lemma Rsum_near : forall n i f, (i < n)%nat -> (forall j, (j + 1 < i \/ i + 1 < j)%nat -> f j = 0) ->
  Rsum n f = (match i with O => 0 | Datatypes.S i' => f i' end) + f i + (if Nat.eqb (i + 1) n then 0 else f (i + 1)%nat).
Proof.
  intros n i f H Z.
  assert (UP : forall i', (i' <= i)%nat -> Rsum (Datatypes.S i) f = Rsum i f + f i) by reflexivity.
  assert (LOW : Rsum i f = match i with O => 0 | Datatypes.S i' => f i' end).
  { destruct i as [|i']; [easy|]. cbn [Rsum]. rewrite Rsum_0; [lra|]. intros j J. apply Z. lia. }
  destruct (Nat.eqb_spec (i + 1) n) as [E|E].
  - subst n. replace (i + 1)%nat with (Datatypes.S i) by lia. cbn [Rsum]. rewrite LOW. lra.
  - replace n with (Datatypes.S (Datatypes.S i) + (n - 2 - i))%nat by lia. rewrite Rsum_app. cbn [Rsum].
    rewrite LOW, (Rsum_0 (n - 2 - i)) by (intros j J; apply Z; lia).
    replace (Datatypes.S i) with (i + 1)%nat by lia. lra.
Qed.

(** ** The loops of the algorithm *)
Lemma fill_ok : forall n i (f : Z -> outcome R) (g : nat -> R),
  (forall k, (i <= k < i + n)%nat -> f (Z.of_nat k) = Ok (g k)) ->
  fill n (Z.of_nat i) f = Ok (map g (seq i n)).
Proof.
  induction n as [|n IH]; intros i f g H; cbn [fill seq map]; [easy|].
  rewrite H by lia. cbn [bind]. replace (Z.of_nat i + 1)%Z with (Z.of_nat (Datatypes.S i)) by lia.
  rewrite (IH _ f g) by (intros; apply H; lia). reflexivity.
Qed.

Lemma fill_0 : forall n (f : Z -> outcome R) (g : nat -> R),
  (forall k, (k < n)%nat -> f (Z.of_nat k) = Ok (g k)) -> fill n 0 f = Ok (map g (seq 0 n)).
Proof. intros n f g H. apply (fill_ok n 0). intros k K. apply H. lia. Qed.

Lemma vget_map_seq : forall (g : nat -> R) n k, (k < n)%nat -> vget (map g (seq 0 n)) (Z.of_nat k) = Ok (g k).
Proof.
  intros g n k H. rewrite vget_nat, nth_error_map.
  rewrite (nth_error_nth' (seq 0 n) 0%nat) by (rewrite seq_length; lia). rewrite seq_nth by lia. reflexivity.
Qed.
Lemma vget_el : forall (b : list R) k, (k < length b)%nat -> vget b (Z.of_nat k) = Ok (el b k).
Proof. intros b k H. rewrite vget_nat. now rewrite (nth_error_nth' b 0 H). Qed.

Lemma coeff_entry : forall n A i j, square n A -> (i < n)%nat -> (j < n)%nat ->
  coeff A (Z.of_nat i) (Z.of_nat j) = Ok (entry A i j).
Proof.
  intros n A i j [L F] I J. unfold coeff. rewrite vget_nat, (nth_error_nth' A []) by lia. cbn [bind].
  unfold entry. apply vget_el. rewrite Forall_forall in F. rewrite (F (nth i A [])); [easy|]. apply nth_In. lia.
Qed.

Section Thomas.
Variable A : list (list R).
Variable b : list R.
Variable n : nat.
Hypothesis SZ : (2 <= n)%nat.
Hypothesis SQ : square n A.
Hypothesis LB : length b = n.

(** The sweep as recursive equations. *)
Fixpoint pivot_c_d (i : nat) : R * R * R :=
  match i with
  | O => (entry A 0 0, entry A 0 1 / entry A 0 0, el b 0 / entry A 0 0)
  | Datatypes.S i' =>
      let '(_, c, d) := pivot_c_d i' in
      let m := entry A i i - entry A i i' * c in
      (m, entry A i (i + 1) / m, (el b i - entry A i i' * d) / m)
  end.
Definition pv i := fst (fst (pivot_c_d i)).
Definition cs i := snd (fst (pivot_c_d i)).
Definition ds i := snd (pivot_c_d i).

Lemma pv_S : forall i, pv (Datatypes.S i) = entry A (Datatypes.S i) (Datatypes.S i) - entry A (Datatypes.S i) i * cs i.
Proof. intros. unfold pv, cs. cbn [pivot_c_d]. destruct (pivot_c_d i) as [[m c] d]. reflexivity. Qed.
Lemma cs_eq : forall i, cs i = entry A i (i + 1) / pv i.
Proof. intros [|i]; unfold pv, cs; cbn [pivot_c_d]; [reflexivity|]. destruct (pivot_c_d i) as [[m c] d]. reflexivity. Qed.
Lemma ds_S : forall i, ds (Datatypes.S i) = (el b (Datatypes.S i) - entry A (Datatypes.S i) i * ds i) / pv (Datatypes.S i).
Proof. intros i. rewrite pv_S. unfold ds, cs. cbn [pivot_c_d]. destruct (pivot_c_d i) as [[m c] d]. reflexivity. Qed.

Fixpoint xback (k : nat) : R :=
  match k with
  | O => ds (n - 1)
  | Datatypes.S k' => ds (n - 2 - k') - cs (n - 2 - k') * xback k'
  end.
Definition xat (i : nat) : R := xback (n - 1 - i).
Definition solution : list R := map xat (seq 0 n).

Lemma sweep_ok : forall k i, (1 <= i)%nat -> (i + k <= n - 1)%nat ->
  iter_from k (Z.of_nat i)
    (sweep_step (map (fun i => entry A (i + 1) i) (seq 0 (n - 1))) (map (fun i => entry A i i) (seq 0 n))
                (map (fun i => entry A i (i + 1)) (seq 0 (n - 1))) b)
    (map cs (seq 0 i), map ds (seq 0 i)) = Ok (map cs (seq 0 (i + k)), map ds (seq 0 (i + k))).
Proof.
  induction k as [|k IH]; intros i H1 H2; cbn [iter_from].
  - now rewrite Nat.add_0_r.
  - unfold sweep_step at 1. destruct i as [|i]; [lia|].
    replace (Z.of_nat (Datatypes.S i) - 1)%Z with (Z.of_nat i) by lia.
    rewrite !vget_map_seq by lia. rewrite vget_el by lia. cbn [bind].
    replace (Z.of_nat (Datatypes.S i) + 1)%Z with (Z.of_nat (Datatypes.S (Datatypes.S i))) by lia.
    replace (Datatypes.S i + Datatypes.S k)%nat with (Datatypes.S (Datatypes.S i) + k)%nat by lia.
    rewrite <- (IH (Datatypes.S (Datatypes.S i))) by lia. f_equal.
    rewrite (seq_S (Datatypes.S i)), !map_app. cbn [map Nat.add].
    rewrite (ds_S i), (cs_eq (Datatypes.S i)), (pv_S i). unfold nsub, nmul, ndiv; cbn [Rnum].
    rewrite !Nat.add_1_r. reflexivity.
Qed.

Lemma back_ok : forall k j csl dsl, (j + k <= n - 1)%nat ->
  (forall i, (i < n - 1)%nat -> vget csl (Z.of_nat i) = Ok (cs i)) ->
  (forall i, (i < n)%nat -> vget dsl (Z.of_nat i) = Ok (ds i)) ->
  iter_from k (Z.of_nat j) (back_step (Z.of_nat n) csl dsl) (rev (map xback (seq 0 (j + 1))))
    = Ok (rev (map xback (seq 0 (j + k + 1)))).
Proof.
  induction k as [|k IH]; intros j csl dsl H HC HD; cbn [iter_from].
  - now rewrite Nat.add_0_r.
  - unfold back_step at 1. replace (Z.of_nat n - 2 - Z.of_nat j)%Z with (Z.of_nat (n - 2 - j)) by lia.
    rewrite HD, HC by lia. cbn [bind].
    rewrite (Nat.add_comm j 1), seq_S, map_app, rev_app_distr. cbn [rev map app vfront bind Nat.add].
    replace (Z.of_nat j + 1)%Z with (Z.of_nat (Datatypes.S j)) by lia.
    replace (j + Datatypes.S k + 1)%nat with (Datatypes.S j + k + 1)%nat by lia.
    rewrite <- (IH (Datatypes.S j) csl dsl) by (auto; lia). f_equal.
    replace (Datatypes.S j + 1)%nat with (Datatypes.S (Datatypes.S j)) by lia.
    rewrite !seq_S, !map_app, !rev_app_distr. reflexivity.
Qed.

Lemma rev_xback : rev (map xback (seq 0 n)) = solution.
Proof.
  unfold solution, xat. apply nth_ext with (d := 0) (d' := 0).
  - rewrite rev_length, !map_length. reflexivity.
  - intros i H. rewrite rev_length, map_length, seq_length in H.
    rewrite rev_nth by (rewrite map_length, seq_length; lia). rewrite map_length, seq_length.
    rewrite (nth_indep _ 0 (xback 0)) by (rewrite map_length, seq_length; lia). rewrite map_nth, seq_nth by lia.
    rewrite (nth_indep _ 0 (xback (n - 1 - 0))) by (rewrite map_length, seq_length; lia).
    rewrite (map_nth (fun i => xback (n - 1 - i))), seq_nth by lia. f_equal. lia.
Qed.

Lemma thomas_eq : (Z.of_nat n - 2 <= INT_MAX)%Z -> thomas A b = Ok solution.
Proof.
  intros MX. unfold thomas. pose proof SQ as [L _]. rewrite L.
  destruct (Z.ltb_spec (Z.of_nat n) 2); [lia|].
  rewrite (fill_0 (n - 1) (fun i => coeff A (i + 1)%Z i) (fun i => entry A (i + 1) i)).
  2:{ intros k K. replace (Z.of_nat k + 1)%Z with (Z.of_nat (k + 1)) by lia. apply (coeff_entry n); auto; lia. }
  cbn [bind]. rewrite (fill_0 (n - 1) (fun i => coeff A i (i + 1)%Z) (fun i => entry A i (i + 1))).
  2:{ intros k K. replace (Z.of_nat k + 1)%Z with (Z.of_nat (k + 1)) by lia. apply (coeff_entry n); auto; lia. }
  cbn [bind]. rewrite (fill_0 n (fun i => coeff A i i) (fun i => entry A i i)).
  2:{ intros k K. apply (coeff_entry n); auto; lia. }
  cbn [bind]. change 0%Z with (Z.of_nat 0). rewrite !vget_map_seq by lia. rewrite vget_el by lia. cbn [bind].
  change ([ndiv (entry A 0 (0 + 1)) (entry A 0 0)], [ndiv (el b 0) (entry A 0 0)]) with (map cs (seq 0 1), map ds (seq 0 1)).
  change 1%Z with (Z.of_nat 1). rewrite sweep_ok by lia. cbn [bind].
  replace (Z.of_nat n - Z.of_nat 1)%Z with (Z.of_nat (n - 1)) by lia.
  replace (Z.of_nat n - 2)%Z with (Z.of_nat (n - 2)) by lia.
  rewrite vget_el by lia. rewrite !vget_map_seq by lia. cbn [bind].
  destruct (Z.leb_spec (Z.of_nat (n - 2)) INT_MAX); [|lia].
  replace (ndiv _ _) with (ds (n - 1)).
  2:{ destruct n as [|[|m]]; [lia|lia|].
      replace (Datatypes.S (Datatypes.S m) - 1)%nat with (Datatypes.S m) by lia.
      replace (Datatypes.S (Datatypes.S m) - 2)%nat with m by lia.
      rewrite ds_S, pv_S. replace (m + 1)%nat with (Datatypes.S m) by lia. reflexivity. }
  replace (1 + (n - 2))%nat with (n - 1)%nat by lia.
  change [ds (n - 1)] with (rev (map xback (seq 0 (0 + 1)))) at 2.
  change 0%Z with (Z.of_nat 0).
  rewrite back_ok; [|lia| |].
  - replace (0 + (n - 1) + 1)%nat with n by lia. now rewrite rev_xback.
  - intros i I. now apply vget_map_seq.
  - intros i I. replace (map ds (seq 0 (n - 1)) ++ [ds (n - 1)]) with (map ds (seq 0 n)); [now apply vget_map_seq|].
    replace n with (Datatypes.S (n - 1)) at 1 by lia. rewrite seq_S, map_app. reflexivity.
Qed.

Hypothesis TRI : tridiagonal A.
Hypothesis PIV : forall i, (i < n)%nat -> pv i <> 0.

Lemma xat_last : xat (n - 1) = ds (n - 1).
Proof. unfold xat. now rewrite Nat.sub_diag. Qed.
Lemma xat_step : forall i, (i + 1 < n)%nat -> xat i = ds i - cs i * xat (i + 1).
Proof.
  intros i H. unfold xat. replace (n - 1 - i)%nat with (Datatypes.S (n - 1 - (i + 1))) by lia.
  cbn [xback]. now replace (n - 2 - (n - 1 - (i + 1)))%nat with i by lia.
Qed.

(** A row of the system. *)
Lemma row_eq : forall x i, (i < n)%nat -> Rsum n (fun j => entry A i j * el x j) =
  (match i with O => 0 | Datatypes.S i' => entry A i i' * el x i' end) + entry A i i * el x i
  + (if Nat.eqb (i + 1) n then 0 else entry A i (i + 1) * el x (i + 1)).
Proof.
  intros x i H. rewrite (Rsum_near n i) by (auto; intros j J; rewrite TRI by lia; ring). reflexivity.
Qed.

Lemma el_solution : forall i, (i < n)%nat -> el solution i = xat i.
Proof.
  intros i H. unfold el, solution. rewrite (nth_indep _ 0 (xat 0)) by (rewrite map_length, seq_length; lia).
  rewrite map_nth, seq_nth by lia. reflexivity.
Qed.

Lemma solution_solves : solves n A solution b.
Proof.
  split; [unfold solution; now rewrite map_length, seq_length|]. intros i H. rewrite row_eq by easy.
  assert (P := PIV i H).
  assert (NX : (if Nat.eqb (i + 1) n then 0 else entry A i (i + 1) * el solution (i + 1)) + pv i * xat i = pv i * ds i).
  { destruct (Nat.eqb_spec (i + 1) n) as [E|E].
    - replace i with (n - 1)%nat by lia. rewrite xat_last. lra.
    - rewrite el_solution by lia. rewrite (xat_step i) by lia. rewrite cs_eq. field. easy. }
  rewrite el_solution by easy. destruct i as [|i].
  - replace (entry A 0 0) with (pv 0) by reflexivity.
    assert (pv 0 * ds 0 = el b 0) as <- by (unfold ds, pv in *; cbn in *; field; easy). lra.
  - rewrite el_solution by lia. rewrite (xat_step i) by lia. replace (i + 1)%nat with (Datatypes.S i) by lia.
    assert (pv (Datatypes.S i) * ds (Datatypes.S i) = el b (Datatypes.S i) - entry A (Datatypes.S i) i * ds i) as D
      by (rewrite ds_S; field; easy).
    rewrite pv_S in *. rewrite D in NX. lra.
Qed.

Lemma solves_step : forall z, solves n A z b -> forall i, (i < n)%nat ->
  pv i * el z i + (if Nat.eqb (i + 1) n then 0 else entry A i (i + 1) * el z (i + 1)) = pv i * ds i.
Proof.
  intros z [_ S]. induction i as [|i IH]; intros H.
  - specialize (S 0%nat H). rewrite row_eq in S by easy. cbn [Nat.add] in *.
    assert (P := PIV 0%nat H). assert (pv 0 * ds 0 = el b 0) as -> by (unfold ds, pv in *; cbn in *; field; easy).
    change (pv 0) with (entry A 0 0). lra.
  - assert (HI : (i < n)%nat) by lia. specialize (IH HI). specialize (S _ H). rewrite row_eq in S by easy.
    assert (P := PIV _ H). assert (P' := PIV _ HI).
    destruct (Nat.eqb_spec (i + 1) n); [lia|]. replace (i + 1)%nat with (Datatypes.S i) in IH by lia.
    assert (pv (Datatypes.S i) * ds (Datatypes.S i) = el b (Datatypes.S i) - entry A (Datatypes.S i) i * ds i) as ->
      by (rewrite ds_S; field; easy).
    assert (Z : el z i = ds i - cs i * el z (Datatypes.S i)).
    { rewrite cs_eq. replace (i + 1)%nat with (Datatypes.S i) by lia. apply Rmult_eq_reg_l with (pv i); [|easy].
      replace (pv i * (ds i - entry A i (Datatypes.S i) / pv i * el z (Datatypes.S i)))
        with (pv i * ds i - entry A i (Datatypes.S i) * el z (Datatypes.S i)) by (field; easy). lra. }
    rewrite Z in S. rewrite pv_S. lra.
Qed.

Lemma solution_unique : forall z, solves n A z b -> z = solution.
Proof.
  intros z S. assert (Z := solves_step z S).
  assert (E : forall k, (k < n)%nat -> el z (n - 1 - k) = xat (n - 1 - k)).
  { induction k as [|k IH]; intros H.
    - rewrite Nat.sub_0_r, xat_last. specialize (Z (n - 1)%nat ltac:(lia)).
      destruct (Nat.eqb_spec (n - 1 + 1) n); [|lia]. apply Rmult_eq_reg_l with (pv (n - 1)); [lra|apply PIV; lia].
    - specialize (IH ltac:(lia)). set (i := (n - 1 - Datatypes.S k)%nat) in *. assert (Hi : (i < n)%nat) by lia.
      replace (n - 1 - k)%nat with (i + 1)%nat in IH by lia. specialize (Z i Hi).
      destruct (Nat.eqb_spec (i + 1) n); [lia|]. rewrite IH in Z. rewrite (xat_step i) by lia.
      apply Rmult_eq_reg_l with (pv i); [|now apply PIV]. rewrite cs_eq.
      replace (pv i * (ds i - entry A i (i + 1) / pv i * xat (i + 1)))
        with (pv i * ds i - entry A i (i + 1) * xat (i + 1)) by (field; now apply PIV). lra. }
  apply nth_ext with (d := 0) (d' := 0).
  - destruct S as [L _]. rewrite L. unfold solution. now rewrite map_length, seq_length.
  - intros i H. destruct S as [L _]. rewrite L in H. fold (el z i) (el solution i).
    rewrite el_solution by easy. specialize (E (n - 1 - i)%nat ltac:(lia)).
    now replace (n - 1 - (n - 1 - i))%nat with i in E by lia.
Qed.
End Thomas.

(** Non-vanishing minors are non-vanishing pivots. *)
Lemma minor_S : forall A k, minor A (Datatypes.S k) = snd (minors A k).
Proof. intros. unfold minor. cbn [minors]. now destruct (minors A k). Qed.
Lemma minor_SS : forall A k, minor A (Datatypes.S (Datatypes.S k)) =
  entry A (Datatypes.S k) (Datatypes.S k) * minor A (Datatypes.S k)
  - entry A (Datatypes.S k) k * entry A k (Datatypes.S k) * minor A k.
Proof. intros. rewrite !minor_S. unfold minor. cbn [minors]. destruct (minors A k). reflexivity. Qed.

Lemma minor_pivot : forall A b k, (forall i, (i < k)%nat -> pv A b i <> 0) ->
  minor A (Datatypes.S k) = minor A k * pv A b k.
Proof.
  induction k as [|k IH]; intros H.
  - unfold minor, pv. cbn. ring.
  - rewrite minor_SS, pv_S, cs_eq. replace (k + 1)%nat with (Datatypes.S k) by lia.
    rewrite (IH (fun i Hi => H i ltac:(lia))). field. apply H. lia.
Qed.
Lemma minors_pivots : forall A b n, (forall k, (k <= n)%nat -> minor A k <> 0) ->
  forall i, (i < n)%nat -> pv A b i <> 0.
Proof.
  intros A b n M. induction i as [i IH] using lt_wf_ind. intros H E.
  apply (M (Datatypes.S i)); [lia|]. rewrite (minor_pivot A b i) by (intros; apply IH; lia). rewrite E. ring.
Qed.

(** ** C59 *)
Theorem C59_thomas : forall n A b,
  (2 <= n)%nat -> (Z.of_nat n - 2 <= INT_MAX)%Z ->
  square n A -> tridiagonal A -> length b = n -> (forall k, (k <= n)%nat -> minor A k <> 0) ->
  exists x, thomas A b = Ok x /\ solves n A x b /\ forall z, solves n A z b -> z = x.
Proof.
  intros n A b SZ MX SQ TRI LB M. exists (solution A b n).
  assert (P := minors_pivots A b n M).
  split; [now apply thomas_eq|]. split; [now apply solution_solves|]. intros z. now apply solution_unique.
Qed.
Print Assumptions C59_thomas.

Lemma dominant_pivots : forall n A b, square n A -> tridiagonal A -> dominant n A ->
  forall i, (i < n)%nat -> pv A b i <> 0 /\ ((i + 1 < n)%nat -> Rabs (cs A b i) <= 1).
Proof.
  intros n A b SQ TRI D.
  assert (ROW : forall i, (i < n)%nat ->
    (match i with O => 0 | Datatypes.S i' => Rabs (entry A i i') end)
    + (if Nat.eqb (i + 1) n then 0 else Rabs (entry A i (i + 1))) < Rabs (entry A i i)).
  { intros i H. specialize (D i H). rewrite (Rsum_near n i) in D; [|easy|].
    - rewrite Nat.eqb_refl in D. replace (Nat.eqb i (i + 1)) with false in D by (symmetry; apply Nat.eqb_neq; lia).
      destruct i as [|i]; [destruct (Nat.eqb _ n); lra|].
      replace (Nat.eqb (Datatypes.S i) i) with false in D by (symmetry; apply Nat.eqb_neq; lia).
      destruct (Nat.eqb _ n); lra.
    - intros j J. destruct (Nat.eqb i j); [easy|]. rewrite TRI by lia. apply Rabs_R0. }
  assert (STEP : forall i, (i < n)%nat ->
    (if Nat.eqb (i + 1) n then 0 else Rabs (entry A i (i + 1))) < Rabs (pv A b i) ->
    pv A b i <> 0 /\ ((i + 1 < n)%nat -> Rabs (cs A b i) <= 1)).
  { intros i H B. assert (N : 0 < Rabs (pv A b i)).
    { destruct (Nat.eqb (i + 1) n); [easy|]. pose proof (Rabs_pos (entry A i (i + 1))). lra. }
    split; [intros E; rewrite E, Rabs_R0 in N; lra|]. intros H1.
    destruct (Nat.eqb_spec (i + 1) n); [lia|]. rewrite cs_eq. unfold Rdiv.
    rewrite Rabs_mult, Rabs_inv. apply Rmult_le_reg_r with (Rabs (pv A b i)); [easy|].
    rewrite Rmult_assoc, Rinv_l by lra. lra. }
  induction i as [|i IH]; intros H; apply STEP; auto.
  - specialize (ROW 0%nat H). change (pv A b 0) with (entry A 0 0). lra.
  - destruct (IH ltac:(lia)) as [_ C]. specialize (C ltac:(lia)). specialize (ROW _ H).
    rewrite pv_S. pose proof (Rabs_triang_inv (entry A (Datatypes.S i) (Datatypes.S i)) (entry A (Datatypes.S i) i * cs A b i)) as T.
    rewrite Rabs_mult in T. pose proof (Rabs_pos (entry A (Datatypes.S i) i)).
    assert (Rabs (entry A (Datatypes.S i) i) * Rabs (cs A b i) <= Rabs (entry A (Datatypes.S i) i)) by nra. lra.
Qed.

Theorem C59_dominant : forall n A b,
  (2 <= n)%nat -> (Z.of_nat n - 2 <= INT_MAX)%Z ->
  square n A -> tridiagonal A -> length b = n -> dominant n A ->
  exists x, thomas A b = Ok x /\ solves n A x b /\ forall z, solves n A z b -> z = x.
Proof.
  intros n A b SZ MX SQ TRI LB D. apply C59_thomas; auto.
  assert (P : forall i, (i < n)%nat -> pv A b i <> 0) by (intros i H; now apply (dominant_pivots n A b SQ TRI D)).
  induction k as [|k IH]; intros H; [unfold minor; cbn; lra|].
  rewrite (minor_pivot A b k) by (intros; apply P; lia). apply Rmult_integral_contrapositive. split; [apply IH; lia|apply P; lia].
Qed.
Print Assumptions C59_dominant.

Theorem C59_too_small : forall T (num : Num T) (A : list (list T)) b,
  (length A < 2)%nat -> thomas A b = Throw InvalidArgument.
Proof. intros T num A b H. unfold thomas. destruct (Z.ltb_spec (Z.of_nat (length A)) 2); [easy|lia]. Qed.
Print Assumptions C59_too_small.

(** A case: a dominant 3x3 system. *)
Definition A3 : list (list R) := [[2; 1; 0]; [1; 3; 1]; [0; 1; 2]].
Lemma A3_tri : tridiagonal A3.
Proof.
  intros i j H. unfold entry, el, A3.
  destruct i as [|[|[|i]]]; destruct j as [|[|[|j]]]; cbn; try lia; try reflexivity;
    try (destruct i; reflexivity); try (destruct j; reflexivity); destruct i; reflexivity.
Qed.
Example C59_ex : square 3 A3 /\ tridiagonal A3 /\ dominant 3 A3 /\ thomas A3 [4; 10; 8] = Ok [1; 2; 3].
Proof.
  assert (SQ : square 3 A3) by (split; [reflexivity|repeat constructor]).
  assert (D : dominant 3 A3).
  { intros i H. destruct i as [|[|[|i]]]; [| | |lia]; unfold entry, el, A3; cbn;
      repeat (rewrite Rabs_pos_eq by lra); lra. }
  split; [easy|]. split; [apply A3_tri|]. split; [easy|].
  destruct (C59_dominant 3 A3 [4; 10; 8]) as (x & E & _ & U); auto using A3_tri; [cbn; unfold INT_MAX; lia|].
  rewrite E. f_equal. symmetry. apply U. split; [reflexivity|].
  intros i H. destruct i as [|[|[|i]]]; [| | |lia]; unfold entry, el, A3; cbn; lra.
Qed.
