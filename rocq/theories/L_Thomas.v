(** The Thomas algorithm in closed form, for any number type. *)
From Coq Require Import List ZArith Bool Lia.
From Verif Require Import M_Num M_Outcome M_Numeric L_Numeric L_Fdm.
Import ListNotations.

Section Thomas.
Context {T : Type} {num : Num T}.
Local Open Scope num_scope.

Definition mat (A : list (list T)) (i j : nat) : T := at_ (nth i A []) j.
Definition square_of (n : nat) (A : list (list T)) : Prop := length A = n /\ Forall (fun row => length row = n) A.

Lemma fill_at : forall n i (f : Z -> outcome T) (g : nat -> T),
  (forall k, (i <= k < i + n)%nat -> f (Z.of_nat k) = Ok (g k)) ->
  fill n (Z.of_nat i) f = Ok (map g (seq i n)).
Proof.
  induction n as [|n IH]; intros i f g H; cbn [fill seq map]; [easy|].
  rewrite H by lia. cbn [bind]. replace (Z.of_nat i + 1)%Z with (Z.of_nat (Datatypes.S i)) by lia.
  rewrite (IH _ f g) by (intros; apply H; lia). reflexivity.
Qed.
Lemma fill_at0 : forall n (f : Z -> outcome T) (g : nat -> T),
  (forall k, (k < n)%nat -> f (Z.of_nat k) = Ok (g k)) -> fill n 0 f = Ok (map g (seq 0 n)).
Proof. intros n f g H. apply (fill_at n 0). intros k K. apply H. lia. Qed.
Lemma vget_seq : forall (g : nat -> T) n k, (k < n)%nat -> vget (map g (seq 0 n)) (Z.of_nat k) = Ok (g k).
Proof.
  intros g n k H. rewrite vget_nat, nth_error_map.
  rewrite (nth_error_nth' (seq 0 n) 0%nat) by (rewrite seq_length; lia). rewrite seq_nth by lia. reflexivity.
Qed.
Lemma coeff_mat : forall n A i j, square_of n A -> (i < n)%nat -> (j < n)%nat ->
  coeff A (Z.of_nat i) (Z.of_nat j) = Ok (mat A i j).
Proof.
  intros n A i j [L F] I J. unfold coeff. rewrite vget_nat, (nth_error_nth' A []) by lia. cbn [bind].
  unfold mat. apply vget_at. rewrite Forall_forall in F. rewrite (F (nth i A [])); [easy|]. apply nth_In. lia.
Qed.

Variable A : list (list T).
Variable b : list T.
Variable n : nat.

(** The sweep as recursive equations. *)
Fixpoint sweep (i : nat) : T * T * T :=
  match i with
  | O => (mat A 0 0, mat A 0 1 / mat A 0 0, at_ b 0 / mat A 0 0)
  | Datatypes.S i' =>
      let '(_, c, d) := sweep i' in
      let m := mat A i i - mat A i i' * c in
      (m, mat A i (i + 1) / m, (at_ b i - mat A i i' * d) / m)
  end.
Definition tpv i := fst (fst (sweep i)).
Definition tcs i := snd (fst (sweep i)).
Definition tds i := snd (sweep i).

Lemma tpv_S : forall i, tpv (Datatypes.S i) = mat A (Datatypes.S i) (Datatypes.S i) - mat A (Datatypes.S i) i * tcs i.
Proof. intros. unfold tpv, tcs. cbn [sweep]. destruct (sweep i) as [[m c] d]. reflexivity. Qed.
Lemma tcs_eq : forall i, tcs i = mat A i (i + 1) / tpv i.
Proof. intros [|i]; unfold tpv, tcs; cbn [sweep]; [reflexivity|]. destruct (sweep i) as [[m c] d]. reflexivity. Qed.
Lemma tds_S : forall i, tds (Datatypes.S i) = (at_ b (Datatypes.S i) - mat A (Datatypes.S i) i * tds i) / tpv (Datatypes.S i).
Proof. intros i. rewrite tpv_S. unfold tds, tcs. cbn [sweep]. destruct (sweep i) as [[m c] d]. reflexivity. Qed.

Fixpoint tback (k : nat) : T :=
  match k with
  | O => tds (n - 1)
  | Datatypes.S k' => tds (n - 2 - k') - tcs (n - 2 - k') * tback k'
  end.
Definition tsol : list T := map (fun i => tback (n - 1 - i)) (seq 0 n).

Hypothesis SZ : (2 <= n)%nat.
Hypothesis SQ : square_of n A.
Hypothesis LB : length b = n.

Lemma tsweep_ok : forall k i, (1 <= i)%nat -> (i + k <= n - 1)%nat ->
  iter_from k (Z.of_nat i)
    (sweep_step (map (fun i => mat A (i + 1) i) (seq 0 (n - 1))) (map (fun i => mat A i i) (seq 0 n))
                (map (fun i => mat A i (i + 1)) (seq 0 (n - 1))) b)
    (map tcs (seq 0 i), map tds (seq 0 i)) = Ok (map tcs (seq 0 (i + k)), map tds (seq 0 (i + k))).
Proof.
  induction k as [|k IH]; intros i H1 H2; cbn [iter_from].
  - now rewrite Nat.add_0_r.
  - unfold sweep_step at 1. destruct i as [|i]; [lia|].
    replace (Z.of_nat (Datatypes.S i) - 1)%Z with (Z.of_nat i) by lia.
    rewrite !vget_seq by lia. rewrite vget_at by lia. cbn [bind].
    replace (Z.of_nat (Datatypes.S i) + 1)%Z with (Z.of_nat (Datatypes.S (Datatypes.S i))) by lia.
    replace (Datatypes.S i + Datatypes.S k)%nat with (Datatypes.S (Datatypes.S i) + k)%nat by lia.
    rewrite <- (IH (Datatypes.S (Datatypes.S i))) by lia. f_equal.
    rewrite (seq_S (Datatypes.S i)), !map_app. cbn [map Nat.add].
    rewrite (tds_S i), (tcs_eq (Datatypes.S i)), (tpv_S i).
    rewrite !Nat.add_1_r. reflexivity.
Qed.

Lemma tback_ok : forall k j csl dsl, (j + k <= n - 1)%nat ->
  (forall i, (i < n - 1)%nat -> vget csl (Z.of_nat i) = Ok (tcs i)) ->
  (forall i, (i < n)%nat -> vget dsl (Z.of_nat i) = Ok (tds i)) ->
  iter_from k (Z.of_nat j) (back_step (Z.of_nat n) csl dsl) (rev (map tback (seq 0 (j + 1))))
    = Ok (rev (map tback (seq 0 (j + k + 1)))).
Proof.
  induction k as [|k IH]; intros j csl dsl H HC HD; cbn [iter_from].
  - now rewrite Nat.add_0_r.
  - unfold back_step at 1. replace (Z.of_nat n - 2 - Z.of_nat j)%Z with (Z.of_nat (n - 2 - j)) by lia.
    rewrite HD, HC by lia. cbn [bind].
    rewrite (Nat.add_comm j 1), seq_S, map_app, rev_app_distr. cbn [rev map app vfront bind Nat.add].
    replace (Z.of_nat j + 1)%Z with (Z.of_nat (Datatypes.S j)) by lia.
    replace (j + Datatypes.S k + 1)%nat with (Datatypes.S j + k + 1)%nat by lia.
    rewrite <- (IH (Datatypes.S j) csl dsl) by (auto; lia). f_equal.
    replace (Datatypes.S j + 1)%nat with (Datatypes.S (Datatypes.S j)) by lia.
    rewrite !seq_S, !map_app, !rev_app_distr. reflexivity.
Qed.

Lemma rev_tback : rev (map tback (seq 0 n)) = tsol.
Proof.
  unfold tsol. apply nth_ext with (d := n0) (d' := n0).
  - rewrite rev_length, !map_length. reflexivity.
  - intros i H. rewrite rev_length, map_length, seq_length in H.
    rewrite rev_nth by (rewrite map_length, seq_length; lia). rewrite map_length, seq_length.
    rewrite (nth_indep _ n0 (tback 0)) by (rewrite map_length, seq_length; lia). rewrite map_nth, seq_nth by lia.
    rewrite (nth_indep _ n0 (tback (n - 1 - 0))) by (rewrite map_length, seq_length; lia).
    rewrite (map_nth (fun i => tback (n - 1 - i))), seq_nth by lia. f_equal. lia.
Qed.

Lemma thomas_tsol : (Z.of_nat n - 2 <= INT_MAX)%Z -> thomas A b = Ok tsol.
Proof.
  intros MX. unfold thomas. pose proof SQ as [L _]. rewrite L.
  destruct (Z.ltb_spec (Z.of_nat n) 2); [lia|].
  rewrite (fill_at0 (n - 1) (fun i => coeff A (i + 1)%Z i) (fun i => mat A (i + 1) i)).
  2:{ intros k K. replace (Z.of_nat k + 1)%Z with (Z.of_nat (k + 1)) by lia. apply (coeff_mat n); auto; lia. }
  cbn [bind]. rewrite (fill_at0 (n - 1) (fun i => coeff A i (i + 1)%Z) (fun i => mat A i (i + 1))).
  2:{ intros k K. replace (Z.of_nat k + 1)%Z with (Z.of_nat (k + 1)) by lia. apply (coeff_mat n); auto; lia. }
  cbn [bind]. rewrite (fill_at0 n (fun i => coeff A i i) (fun i => mat A i i)).
  2:{ intros k K. apply (coeff_mat n); auto; lia. }
  cbn [bind]. change 0%Z with (Z.of_nat 0). rewrite !vget_seq by lia. rewrite vget_at by lia. cbn [bind].
  change ([mat A 0 (0 + 1) / mat A 0 0], [at_ b 0 / mat A 0 0]) with (map tcs (seq 0 1), map tds (seq 0 1)).
  change 1%Z with (Z.of_nat 1). rewrite tsweep_ok by lia. cbn [bind].
  replace (Z.of_nat n - Z.of_nat 1)%Z with (Z.of_nat (n - 1)) by lia.
  replace (Z.of_nat n - 2)%Z with (Z.of_nat (n - 2)) by lia.
  rewrite vget_at by lia. rewrite !vget_seq by lia. cbn [bind].
  destruct (Z.leb_spec (Z.of_nat (n - 2)) INT_MAX); [|lia].
  replace (ndiv _ _) with (tds (n - 1)).
  2:{ destruct n as [|[|m]]; [lia|lia|].
      replace (Datatypes.S (Datatypes.S m) - 1)%nat with (Datatypes.S m) by lia.
      replace (Datatypes.S (Datatypes.S m) - 2)%nat with m by lia.
      rewrite tds_S, tpv_S. replace (m + 1)%nat with (Datatypes.S m) by lia. reflexivity. }
  replace (1 + (n - 2))%nat with (n - 1)%nat by lia.
  change [tds (n - 1)] with (rev (map tback (seq 0 (0 + 1)))) at 2.
  change 0%Z with (Z.of_nat 0).
  rewrite tback_ok; [|lia| |].
  - replace (0 + (n - 1) + 1)%nat with n by lia. now rewrite rev_tback.
  - intros i I. now apply vget_seq.
  - intros i I. replace (map tds (seq 0 (n - 1)) ++ [tds (n - 1)]) with (map tds (seq 0 n)); [now apply vget_seq|].
    replace n with (Datatypes.S (n - 1)) at 1 by lia. rewrite seq_S, map_app. reflexivity.
Qed.

End Thomas.

(** The entries of the tridiagonal matrices of the solvers. *)
Lemma tri_square_of : forall T (num : Num T) n m (al be ga : nat -> T), square_of (n - 2) (tri n m al be ga).
Proof.
  intros T num n m al be ga. unfold tri. split; [now rewrite map_length, seq_length|].
  apply Forall_forall. intros row I. apply in_map_iff in I as (i & <- & _). now rewrite map_length, seq_length.
Qed.
Lemma tri_mat : forall T (num : Num T) n (al be ga : nat -> T) i j, (i < n - 2)%nat -> (j < n - 2)%nat ->
  mat (tri n (n - 2) al be ga) i j =
  if Nat.eqb (j + 1) i then al (i + 1)%nat else if Nat.eqb j i then be (i + 1)%nat
  else if Nat.eqb j (i + 1) then ga (i + 1)%nat else n0.
Proof.
  intros T num n al be ga i j I J. unfold mat, tri.
  set (row := fun i => map _ (seq 0 (n - 2))).
  rewrite (nth_indep _ [] (row 0%nat)) by (rewrite map_length, seq_length; lia). rewrite (map_nth row), seq_nth by lia.
  unfold row. cbn [Nat.add]. rewrite at_map_seq by easy. destruct (Nat.ltb_spec i (n - 2)); [easy|lia].
Qed.
