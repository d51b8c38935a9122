(** The pivots of the systems that the implicit and the Crank-Nicolson solver build for the
    Black-Scholes equation. *)
From Coq Require Import List ZArith Bool Lia Reals Lra.
From Flocq Require Import Core.
From Verif Require Import M_Num M_Outcome M_Numeric S_Numeric L_Numeric L_Fdm P_LinearSystem P_FdmScheme.
Import ListNotations.
Local Open Scope R_scope.

(** One step of the recursion of the pivots, with their signs changed. *)
Lemma pivot_step : forall e q J x M, 0 < e -> 0 < q -> 1 <= J -> 2 <= x -> 0 < M ->
  (J <= x + 1 -> q + e * ((x - 1) * (x - 1) * (x - 1 + J) / x) <= M) ->
  let M' := q + 2 * e * (x * x) - e * e * (x * (x - 1) * (x - J) * (x - 1 + J)) / M in
  0 < M' /\ (J <= x + 2 -> q + e * (x * x * (x + J) / (x + 1)) <= M').
Proof.
  intros e q J x M He Hq HJ Hx HM IH M'.
  destruct (Rle_lt_dec x J) as [L|L].
  - assert (P : 0 <= - (e * e * (x * (x - 1) * (x - J) * (x - 1 + J)) / M)).
    { unfold Rdiv. rewrite Ropp_mult_distr_l. apply Rmult_le_pos; [|apply Rlt_le, Rinv_0_lt_compat; easy].
      replace (- (e * e * (x * (x - 1) * (x - J) * (x - 1 + J)))) with (e * e * (x * (x - 1) * (J - x) * (x - 1 + J))) by ring.
      apply Rmult_le_pos; [nra|]. repeat apply Rmult_le_pos; lra. }
    assert (0 < e * (x * x)) by (apply Rmult_lt_0_compat; nra).
    split; [unfold M'; lra|]. intros U.
    assert (x * x * (x + J) / (x + 1) <= 2 * (x * x)).
    { apply Rmult_le_reg_r with (x + 1); [lra|]. unfold Rdiv. rewrite Rmult_assoc, Rinv_l by lra. rewrite Rmult_1_r.
      assert (0 <= (x * x) * (x + 2 - J)) by (apply Rmult_le_pos; nra). lra. }
    assert (e * (x * x * (x + J) / (x + 1)) <= e * (2 * (x * x))) by (apply Rmult_le_compat_l; lra).
    unfold M'. lra.
  - specialize (IH ltac:(lra)).
    set (B := e * ((x - 1) * (x - 1) * (x - 1 + J) / x)) in *.
    assert (HB : 0 < B).
    { unfold B, Rdiv. apply Rmult_lt_0_compat; [easy|]. apply Rmult_lt_0_compat; [|apply Rinv_0_lt_compat; lra].
      apply Rmult_lt_0_compat; [|lra]. nra. }
    set (P := e * e * (x * (x - 1) * (x - J) * (x - 1 + J))) in *.
    assert (HP : 0 <= P).
    { unfold P. apply Rmult_le_pos; [nra|]. repeat apply Rmult_le_pos; lra. }
    assert (D : P / M <= e * (x * x * (x - J) / (x - 1))).
    { apply Rle_trans with (P / B).
      - unfold Rdiv. apply Rmult_le_compat_l; [easy|]. apply Rinv_le_contravar; lra.
      - apply Req_le. unfold P, B. field. lra. }
    assert (I : e * (x * x * (x + J) / (x + 1)) + e * (x * x * (x - J) / (x - 1)) <= 2 * e * (x * x)).
    { apply Rmult_le_reg_r with ((x + 1) * (x - 1)); [nra|].
      replace ((e * (x * x * (x + J) / (x + 1)) + e * (x * x * (x - J) / (x - 1))) * ((x + 1) * (x - 1)))
        with (e * (x * x) * (2 * (x * x) - 2 * J)) by (field; lra).
      assert (0 <= e * (x * x)) by (apply Rmult_le_pos; nra). nra. }
    assert (0 < e * (x * x * (x + J) / (x + 1))).
    { apply Rmult_lt_0_compat; [easy|]. unfold Rdiv. apply Rmult_lt_0_compat; [|apply Rinv_0_lt_compat; lra].
      apply Rmult_lt_0_compat; [nra|lra]. }
    unfold M'. split; [lra|intros _; lra].
Qed.

Section Pivots.
Variables (h2 a s mu q : R) (n : nat) (b : list R).
Hypothesis H2 : 0 < h2.
Hypothesis HA : 0 < a.
Hypothesis HS : 0 <= s.
Hypothesis HQ : 0 < q.
Variables al be ga : nat -> R.
Hypothesis AL : forall j, (1 <= j <= n - 2)%nat -> al j = h2 * (a / 2 * (s * INR j * INR j - mu * INR j)).
Hypothesis BE : forall j, (1 <= j <= n - 2)%nat -> be j = - (h2 * (q + a * s * INR j * INR j)).
Hypothesis GA : forall j, (1 <= j <= n - 2)%nat -> ga j = h2 * (a / 2 * (s * INR j * INR j + mu * INR j)).
Let A := tri n (n - 2) al be ga.

(** The pivot of row j, divided by - h2. *)
Let M (i : nat) : R := - (pv A b i / h2).

Lemma M_0 : (3 <= n)%nat -> M 0 = q + a * s.
Proof.
  intros H. unfold M. change (pv A b 0) with (entry A 0 0). unfold A. rewrite tri_entry by lia.
  cbn [Nat.add Nat.eqb]. rewrite BE by lia. cbn [INR]. field. lra.
Qed.
Lemma M_S : forall i, (Datatypes.S i < n - 2)%nat -> M i <> 0 ->
  M (Datatypes.S i) = q + a * s * INR (i + 2) * INR (i + 2) - al (i + 2)%nat * ga (i + 1)%nat / (h2 * h2) / M i.
Proof.
  intros i I NZ.
  assert (PZ : pv A b i <> 0) by (intros E; apply NZ; unfold M; rewrite E; field; lra).
  unfold M at 1. rewrite pv_S, cs_eq.
  assert (E1 : entry A (Datatypes.S i) (Datatypes.S i) = be (i + 2)%nat).
  { unfold A. rewrite tri_entry by lia. replace (Nat.eqb (Datatypes.S i + 1) (Datatypes.S i)) with false by (symmetry; apply Nat.eqb_neq; lia).
    rewrite Nat.eqb_refl. f_equal. lia. }
  assert (E2 : entry A (Datatypes.S i) i = al (i + 2)%nat).
  { unfold A. rewrite tri_entry by lia. replace (Nat.eqb (i + 1) (Datatypes.S i)) with true by (symmetry; apply Nat.eqb_eq; lia). f_equal. lia. }
  assert (E3 : entry A i (i + 1) = ga (i + 1)%nat).
  { unfold A. rewrite tri_entry by lia. replace (Nat.eqb (i + 1 + 1) i) with false by (symmetry; apply Nat.eqb_neq; lia).
    replace (Nat.eqb (i + 1) i) with false by (symmetry; apply Nat.eqb_neq; lia). now rewrite Nat.eqb_refl. }
  rewrite E1, E2, E3, BE by lia. unfold M. field. split; lra.
Qed.

(** Weak convection: the rows are dominant. *)
Lemma pivots_weak : Rabs mu <= s -> forall i, (i < n - 2)%nat -> pv A b i <> 0.
Proof.
  intros W i I. apply (dominant_pivots (n - 2) A b); auto.
  - apply tri_square.
  - apply tri_tridiagonal. lia.
  - apply tri_dominant. intros j J. rewrite AL, BE, GA by easy.
    assert (J1 : 1 <= INR j) by (change 1 with (INR 1); apply le_INR; lia).
    assert (B : - (s * INR j * INR j) <= mu * INR j <= s * INR j * INR j).
    { apply Rabs_le_inv in W. assert (s <= s * INR j) by nra.
      split; [rewrite Ropp_mult_distr_l|]; apply Rmult_le_compat_r; lra. }
    set (x := s * INR j * INR j) in *. set (y := mu * INR j) in *.
    replace (a * s * INR j * INR j) with (a * x) by (unfold x; ring).
    rewrite Rabs_Ropp, !Rabs_mult, (Rabs_pos_eq h2), (Rabs_pos_eq (a / 2)), (Rabs_pos_eq (x - y)), (Rabs_pos_eq (x + y)) by lra.
    assert (0 <= a * x) by (apply Rmult_le_pos; lra). rewrite (Rabs_pos_eq (q + a * x)) by lra.
    rewrite <- Rmult_plus_distr_l. apply Rmult_lt_compat_l; [easy|]. lra.
Qed.

(** The products of the off-diagonal elements for strong convection. *)
Lemma pivots_product : forall J, 1 <= J -> 0 < s ->
  (forall j, (2 <= j <= n - 2)%nat -> al j * ga (j - 1)%nat / (h2 * h2) =
     (a * s / 2) * (a * s / 2) * (INR j * (INR j - 1) * (INR j - J) * (INR j - 1 + J))) ->
  forall i, (i < n - 2)%nat -> 0 < M i /\
    (J <= INR (i + 1) + 2 -> q + a * s / 2 * (INR (i + 1) * INR (i + 1) * (INR (i + 1) + J) / (INR (i + 1) + 1)) <= M i).
Proof.
  intros J HJ S0 PR. assert (E0 : 0 < a * s / 2) by (assert (0 < a * s) by (now apply Rmult_lt_0_compat); lra).
  induction i as [|i IH]; intros I.
  - rewrite M_0 by lia. cbn [Nat.add INR]. split; [lra|]. intros U.
    assert (a * s / 2 * (1 * 1 * (1 + J) / (1 + 1)) <= a * s / 2 * 2) by (apply Rmult_le_compat_l; lra). lra.
  - destruct (IH ltac:(lia)) as [P B]. rewrite M_S by (lia || lra).
    assert (PI := PR (i + 2)%nat ltac:(lia)). replace (i + 2 - 1)%nat with (i + 1)%nat in PI by lia. rewrite PI.
    replace (Datatypes.S i + 1)%nat with (i + 2)%nat by lia.
    assert (X : INR (i + 1) = INR (i + 2) - 1) by (rewrite !plus_INR; cbn; ring). rewrite X in B.
    assert (X2 : 2 <= INR (i + 2)) by (change 2 with (INR 2); apply le_INR; lia).
    set (x := INR (i + 2)) in *. set (e := a * s / 2) in *.
    replace (q + a * s * x * x) with (q + 2 * e * (x * x)) by (unfold e; field).
    apply (pivot_step e q J x (M i)); auto. intros U. replace (x - 1 + 1) with x in B by ring. apply B. lra.
Qed.

(** No pivot vanishes. *)
Lemma bs_pivots : forall i, (i < n - 2)%nat -> pv A b i <> 0.
Proof.
  intros i I.
  assert (FIN : 0 < M i -> pv A b i <> 0).
  { intros P E. unfold M in P. rewrite E in P. unfold Rdiv in P. rewrite Rmult_0_l, Ropp_0 in P. lra. }
  assert (IN : forall j, (2 <= j)%nat -> INR (j - 1) = INR j - 1) by (intros; now rewrite minus_INR by lia).
  destruct (Rle_lt_dec (Rabs mu) s) as [W|W]; [now apply pivots_weak|].
  destruct (Rle_lt_or_eq_dec 0 s HS) as [S0|S0].
  - apply FIN. destruct (Rle_lt_dec 0 mu) as [MU|MU].
    + rewrite Rabs_pos_eq in W by easy. apply (pivots_product (mu / s)); auto.
      * apply Rmult_le_reg_r with s; [easy|]. unfold Rdiv. rewrite Rmult_assoc, Rinv_l by lra. lra.
      * intros j J. rewrite AL, GA, IN by lia. field. lra.
    + rewrite Rabs_left in W by easy. apply (pivots_product (1 - mu / s)); auto.
      * assert (0 < - mu / s) by (apply Rdiv_lt_0_compat; lra). unfold Rdiv in *. lra.
      * intros j J. rewrite AL, GA, IN by lia. field. lra.
  - (* no diffusion *)
    assert (G : forall i, (i < n - 2)%nat -> 0 < M i); [|now apply FIN, G]. clear i I FIN.
    induction i as [|i IH]; intros I; [rewrite M_0 by lia; rewrite <- S0; lra|]. specialize (IH ltac:(lia)).
    rewrite M_S, AL, GA by (lia || lra). rewrite <- S0.
    assert (0 <= (a / 2 * mu * (a / 2 * mu)) * (INR (i + 2) * INR (i + 1)) / M i).
    { unfold Rdiv. apply Rmult_le_pos; [|apply Rlt_le, Rinv_0_lt_compat; easy].
      apply Rmult_le_pos; [apply Rle_0_sqr|]. apply Rmult_le_pos; apply pos_INR. }
    replace (h2 * (a / 2 * (0 * INR (i + 2) * INR (i + 2) - mu * INR (i + 2))) *
       (h2 * (a / 2 * (0 * INR (i + 1) * INR (i + 1) + mu * INR (i + 1)))) / (h2 * h2) / M i)
      with (- ((a / 2 * mu * (a / 2 * mu)) * (INR (i + 2) * INR (i + 1)) / M i)) by (field; lra). lra.
Qed.

(** So the Thomas algorithm solves the system, and nothing else does. *)
Lemma bs_solved : (4 <= n)%nat -> (Z.of_nat n - 4 <= INT_MAX)%Z -> length b = (n - 2)%nat ->
  exists x, thomas A b = Ok x /\ solves (n - 2) A x b /\ forall z, solves (n - 2) A z b -> z = x.
Proof.
  intros N4 MX LB. apply C59_thomas; auto; try lia.
  - apply tri_square.
  - apply tri_tridiagonal. lia.
  - assert (P := bs_pivots). induction k as [|k IH]; intros H; [unfold minor; cbn; lra|].
    rewrite (minor_pivot A b k) by (intros; apply P; lia). apply Rmult_integral_contrapositive. split; [apply IH; lia|apply P; lia].
Qed.
End Pivots.

(** The homogeneous problem has only the zero solution. *)
Lemma bs_homogeneous : forall h2 a s mu q n (al be ga : nat -> R) (d : nat -> R),
  0 < h2 -> 0 < a -> 0 <= s -> 0 < q ->
  (forall j, (1 <= j <= n - 2)%nat -> al j = h2 * (a / 2 * (s * INR j * INR j - mu * INR j))) ->
  (forall j, (1 <= j <= n - 2)%nat -> be j = - (h2 * (q + a * s * INR j * INR j))) ->
  (forall j, (1 <= j <= n - 2)%nat -> ga j = h2 * (a / 2 * (s * INR j * INR j + mu * INR j))) ->
  (4 <= n)%nat -> (Z.of_nat n - 4 <= INT_MAX)%Z -> d 0%nat = 0 -> d (n - 1)%nat = 0 ->
  (forall j, (1 <= j <= n - 2)%nat -> al j * d (j - 1)%nat + be j * d j + ga j * d (j + 1)%nat = 0) ->
  forall j, (j < n)%nat -> d j = 0.
Proof.
  intros h2 a s mu q n al be ga d H2 HA HS HQ AL BE GA N4 MX D0 D1 EQ j J.
  set (zs := repeat 0 (n - 2)). set (z := map (fun i => d (i + 1)%nat) (seq 0 (n - 2))).
  destruct (bs_solved h2 a s mu q n zs H2 HA HS HQ al be ga AL BE GA N4 MX (repeat_length _ _)) as (x & _ & _ & U).
  assert (EZ : forall i, (i < n - 2)%nat -> el z i = d (i + 1)%nat) by (intros i I; unfold z, el; now rewrite nth_map_seq).
  assert (E0 : forall i, el zs i = 0) by (intros i; unfold zs, el; apply nth_repeat).
  assert (Z1 : solves (n - 2) (tri n (n - 2) al be ga) z zs).
  { split; [unfold z; now rewrite map_length, seq_length|]. intros i I. rewrite tri_row by easy. rewrite E0, (EZ i I).
    specialize (EQ (i + 1)%nat ltac:(lia)). replace (i + 1 - 1)%nat with i in EQ by lia.
    assert (L : (if Nat.eqb i 0 then 0 else al (i + 1)%nat * el z (i - 1)) = al (i + 1)%nat * d i).
    { destruct (Nat.eqb_spec i 0) as [I0|I0]; [rewrite I0, D0; ring|]. rewrite EZ by lia. do 2 f_equal. lia. }
    assert (G : (if Nat.eqb (i + 1) (n - 2) then 0 else ga (i + 1)%nat * el z (i + 1)) = ga (i + 1)%nat * d (i + 1 + 1)%nat).
    { destruct (Nat.eqb_spec (i + 1) (n - 2)) as [I1|I1]; [replace (i + 1 + 1)%nat with (n - 1)%nat by lia; rewrite D1; ring|].
      now rewrite EZ by lia. }
    rewrite L, G. exact EQ. }
  assert (Z2 : solves (n - 2) (tri n (n - 2) al be ga) zs zs).
  { split; [apply repeat_length|]. intros i I. rewrite tri_row by easy. rewrite !E0.
    destruct (Nat.eqb i 0), (Nat.eqb (i + 1) (n - 2)); ring. }
  assert (ZE : z = zs) by (transitivity x; [|symmetry]; auto).
  destruct (Nat.eq_dec j 0) as [-> |J0]; [easy|]. destruct (Nat.eq_dec j (n - 1)) as [-> |J1]; [easy|].
  rewrite <- (E0 (j - 1)%nat), <- ZE, EZ by lia. f_equal. lia.
Qed.
