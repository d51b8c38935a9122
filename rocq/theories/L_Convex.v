(** Convexity along the grid under one step of the Black-Scholes operator. *)
From Coq Require Import Arith Lia Reals Lra Psatz.
From Flocq Require Import Core.
Local Open Scope R_scope.

Section Operator.
Variables sigma r q dt : R.
Hypothesis D0 : 0 < dt. Hypothesis Q0 : 0 <= q.
Hypothesis PE : Rabs (r - q) <= sigma * sigma.

Definition bend (u : nat -> R) (j : nat) : R := u (j + 1)%nat - 2 * u j + u (j - 1)%nat.
Definition lap (u : nat -> R) (j : nat) : R :=
  sigma * sigma * INR j * INR j / 2 * bend u j + (r - q) * INR j / 2 * (u (j + 1)%nat - u (j - 1)%nat) - r * u j.
Definition pu (j : nat) : R := (sigma * sigma * INR j * INR j + (r - q) * INR j) / 2.
Definition pd (j : nat) : R := (sigma * sigma * INR j * INR j - (r - q) * INR j) / 2.

Lemma pu_pd : forall j, 0 <= pu j /\ 0 <= pd j.
Proof.
  intros j. unfold pu, pd. destruct j as [|j]; [cbn [INR]; split; lra|].
  assert (1 <= INR (S j)) by (rewrite S_INR; pose proof (pos_INR j); lra). set (x := INR (S j)) in *.
  apply Rabs_le_inv in PE. assert (sigma * sigma * x <= sigma * sigma * x * x) by (assert (0 <= sigma * sigma * x) by (apply Rmult_le_pos; nra); nra).
  split; nra.
Qed.
Lemma bend_lap : forall u j, (1 <= j)%nat ->
  bend (lap u) j = pu (j + 1) * bend u (j + 1) - (pu j + pd j + q) * bend u j + pd (j - 1) * bend u (j - 1).
Proof.
  intros u j J. unfold bend at 1. unfold lap. destruct j as [|j]; [lia|]. unfold bend, pu, pd. rewrite !Nat.add_1_r. cbn [Nat.sub]. rewrite !Nat.sub_0_r. rewrite !S_INR. field.
Qed.

(** A step whose new value in the interior is exactly the operator applied to the old value,
    and at least that at both ends. *)
Lemma explicit_bend : forall last u u', (1 <= last)%nat ->
  bend u last = 0 -> (forall j, (1 <= j < last)%nat -> 0 <= bend u j) ->
  (forall j, (1 <= j < last)%nat -> dt * (pu j + pd j + q) <= 1) ->
  (forall j, (1 <= j < last)%nat -> u' j = u j + dt * lap u j) ->
  u 0%nat + dt * lap u 0 <= u' 0%nat -> u last + dt * lap u last <= u' last ->
  forall j, (1 <= j < last)%nat -> 0 <= bend u' j.
Proof.
  intros last u u' L B0 BU CFL EQ E0 E1 j J.
  assert (GE : forall i, (i <= last)%nat -> u i + dt * lap u i <= u' i).
  { intros i I. destruct (Nat.eq_dec i 0) as [->|]; [exact E0|]. destruct (Nat.eq_dec i last) as [->|]; [exact E1|]. rewrite EQ by lia. lra. }
  pose proof (GE (j + 1)%nat ltac:(lia)) as G1. pose proof (GE (j - 1)%nat ltac:(lia)) as G2.
  assert (LB : bend u j + dt * bend (lap u) j <= bend u' j) by (unfold bend; rewrite (EQ j J); lra).
  rewrite bend_lap in LB by lia. eapply Rle_trans; [|exact LB].
  assert (N1 : 0 <= pu (j + 1) * bend u (j + 1)).
  { apply Rmult_le_pos; [apply pu_pd|]. destruct (Nat.eq_dec (j + 1) last) as [->|]; [lra|]. apply BU. lia. }
  assert (N2 : 0 <= pd (j - 1) * bend u (j - 1)).
  { destruct (Nat.eq_dec j 1) as [->|]; [unfold pd; cbn [Nat.sub INR]; lra|]. apply Rmult_le_pos; [apply pu_pd|]. apply BU. lia. }
  pose proof (CFL j J) as C. pose proof (BU j J) as BJ.
  assert (N3 : 0 <= (1 - dt * (pu j + pd j + q)) * bend u j) by (apply Rmult_le_pos; lra).
  assert (0 <= dt * (pu (j + 1) * bend u (j + 1))) by (apply Rmult_le_pos; lra).
  assert (0 <= dt * (pd (j - 1) * bend u (j - 1))) by (apply Rmult_le_pos; lra). lra.
Qed.

(** The same with the operator applied to the new value.  The flux [F] of the negative part
    of the second differences cannot decrease along the grid, is nonnegative at the left end
    and not positive at the right end. *)
Lemma flux : forall M p, (forall j, 0 <= p j) -> p (M + 1)%nat = 0 ->
  (forall j, (1 <= j <= M)%nat -> (1 + dt * (pu j + pd j + q)) * p j <= dt * (pd (j - 1) * p (j - 1)%nat) + dt * (pu (j + 1) * p (j + 1)%nat)) ->
  forall j, (1 <= j <= M)%nat -> p j = 0.
Proof.
  intros M p P0 PM REC. set (F := fun j => dt * (pu (j + 1) * p (j + 1)%nat) - dt * (pd j * p j)).
  assert (DQ : 0 <= dt * q) by (apply Rmult_le_pos; lra).
  assert (INC : forall j, (1 <= j <= M)%nat -> F (j - 1)%nat + p j <= F j).
  { intros j J. specialize (REC j J). unfold F. replace (j - 1 + 1)%nat with j by lia. pose proof (P0 j). assert (0 <= dt * q * p j) by (apply Rmult_le_pos; lra). lra. }
  assert (FP : forall j, (j <= M)%nat -> 0 <= F j).
  { induction j as [|j IH]; intros J.
    - unfold F. replace (pd 0) with 0 by (unfold pd; cbn [INR]; field). destruct (pu_pd (0 + 1)) as [A _]. pose proof (P0 (0 + 1)%nat).
      assert (0 <= dt * (pu (0 + 1) * p (0 + 1)%nat)) by (apply Rmult_le_pos; [lra|apply Rmult_le_pos; lra]). lra.
    - specialize (INC (S j) ltac:(lia)). cbn [Nat.sub] in INC. rewrite Nat.sub_0_r in INC. pose proof (P0 (S j)). specialize (IH ltac:(lia)). lra. }
  assert (FM : F M <= 0).
  { unfold F. rewrite PM. destruct (pu_pd M) as [_ A]. pose proof (P0 M). assert (0 <= dt * (pd M * p M)) by (apply Rmult_le_pos; [lra|apply Rmult_le_pos; lra]). lra. }
  assert (UP : forall k j, (j + k <= M)%nat -> F j <= F (j + k)%nat).
  { induction k as [|k IH]; intros j J; [rewrite Nat.add_0_r; lra|]. eapply Rle_trans; [apply IH; lia|]. specialize (INC (j + S k)%nat ltac:(lia)).
    replace (j + S k - 1)%nat with (j + k)%nat in INC by lia. pose proof (P0 (j + S k)%nat). lra. }
  intros j J. pose proof (INC j J). pose proof (FP (j - 1)%nat ltac:(lia)). pose proof (UP (M - j)%nat j ltac:(lia)) as U. replace (j + (M - j))%nat with M in U by lia. pose proof (P0 j). lra.
Qed.
Lemma implicit_bend : forall last u u', (1 <= last)%nat ->
  bend u' last = 0 -> (forall j, (1 <= j < last)%nat -> 0 <= bend u j) ->
  (forall j, (1 <= j < last)%nat -> u' j - dt * lap u' j = u j) ->
  u 0%nat <= u' 0%nat - dt * lap u' 0 -> u last <= u' last - dt * lap u' last ->
  forall j, (1 <= j < last)%nat -> 0 <= bend u' j.
Proof.
  intros last u u' L B0 BU EQ E0 E1.
  assert (GE : forall i, (i <= last)%nat -> u i <= u' i - dt * lap u' i).
  { intros i I. destruct (Nat.eq_dec i 0) as [->|]; [exact E0|]. destruct (Nat.eq_dec i last) as [->|]; [exact E1|]. rewrite EQ by lia. lra. }
  set (p := fun j => Rmax 0 (- bend u' j)).
  assert (P0 : forall j, 0 <= p j) by (intros; apply Rmax_l). assert (PB : forall j, - bend u' j <= p j) by (intros; apply Rmax_r).
  enough (Z : forall j, (1 <= j <= last - 1)%nat -> p j = 0).
  { intros j J. specialize (Z j ltac:(lia)). pose proof (PB j). lra. }
  apply flux; [exact P0|replace (last - 1 + 1)%nat with last by lia; unfold p; rewrite B0, Ropp_0; apply Rmax_left; lra|].
  intros j J. assert (DQ : 0 <= dt * q) by (apply Rmult_le_pos; lra). destruct (pu_pd j) as [A1 A2]. destruct (pu_pd (j + 1)) as [A3 _]. destruct (pu_pd (j - 1)) as [_ A4].
  assert (R1 : 0 <= dt * (pd (j - 1) * p (j - 1)%nat)) by (pose proof (P0 (j - 1)%nat); apply Rmult_le_pos; [lra|apply Rmult_le_pos; lra]).
  assert (R2 : 0 <= dt * (pu (j + 1) * p (j + 1)%nat)) by (pose proof (P0 (j + 1)%nat); apply Rmult_le_pos; [lra|apply Rmult_le_pos; lra]).
  destruct (Rle_lt_dec 0 (bend u' j)) as [NN|NEG].
  - replace (p j) with 0 by (unfold p; rewrite Rmax_left; lra). lra.
  - replace (p j) with (- bend u' j) by (unfold p; rewrite Rmax_right; lra).
    pose proof (GE (j + 1)%nat ltac:(lia)) as G1. pose proof (GE (j - 1)%nat ltac:(lia)) as G2. pose proof (EQ j ltac:(lia)) as G3. pose proof (BU j ltac:(lia)) as BJ.
    assert (LB : bend u j <= bend u' j - dt * bend (lap u') j) by (set (l := lap u') in *; clearbody l; clear - G1 G2 G3; unfold bend; lra).
    rewrite bend_lap in LB by lia.
    assert (S1 : dt * (pd (j - 1) * - bend u' (j - 1)) <= dt * (pd (j - 1) * p (j - 1)%nat)) by (apply Rmult_le_compat_l; [lra|]; apply Rmult_le_compat_l; [lra|]; apply PB).
    assert (S2 : dt * (pu (j + 1) * - bend u' (j + 1)) <= dt * (pu (j + 1) * p (j + 1)%nat)) by (apply Rmult_le_compat_l; [lra|]; apply Rmult_le_compat_l; [lra|]; apply PB).
    lra.
Qed.
End Operator.
