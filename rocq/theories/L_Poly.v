(** Certified bounds: positivity of polynomials with rational coefficients on an
    interval, and upper bounds of the exponential at rational points. *)
From Coq Require Import List ZArith QArith Qreals Reals Lra Lia.
From Coquelicot Require Import Coquelicot.
Import ListNotations.
Local Open Scope R_scope.

Fixpoint peval (p : list Q) (x : R) : R :=
  match p with
  | [] => 0
  | c :: p' => Q2R c + x * peval p' x
  end.

(** Enclosure of [peval p] on [a, b] for 0 <= a <= b. *)
Fixpoint pbox (p : list Q) (a b : Q) : Q * Q :=
  match p with
  | [] => (0%Q, 0%Q)
  | c :: p' =>
      let (l, h) := pbox p' a b in
      ((c + (if Qle_bool 0 l then a * l else b * l))%Q,
       (c + (if Qle_bool 0 h then b * h else a * h))%Q)
  end.

Fixpoint ppos (n : nat) (p : list Q) (a b : Q) : bool :=
  if negb (Qle_bool (fst (pbox p a b)) 0) then true
  else match n with
       | O => false
       | S n' => let m := Qred ((a + b) / (2 # 1)) in
                 (ppos n' p a m && ppos n' p m b)%bool
       end.

Lemma Qle_bool_R : forall a b, Qle_bool a b = true -> Q2R a <= Q2R b.
Proof. intros. apply Qle_Rle. now apply Qle_bool_iff. Qed.
Lemma Qle_bool_R' : forall a b, Qle_bool a b = false -> Q2R b < Q2R a.
Proof.
  intros a b H. apply Qlt_Rlt. apply Qnot_le_lt. intros L. apply Qle_bool_iff in L. congruence.
Qed.
Lemma Q2R_0 : Q2R 0 = 0.
Proof. unfold Q2R. simpl. lra. Qed.

Lemma pbox_sound : forall p a b x, 0 <= Q2R a <= x -> x <= Q2R b ->
  Q2R (fst (pbox p a b)) <= peval p x <= Q2R (snd (pbox p a b)).
Proof.
  induction p as [|c p IH]; intros a b x A B; cbn [pbox peval].
  - cbn. rewrite Q2R_0. lra.
  - specialize (IH a b x A B). destruct (pbox p a b) as [l h]. cbn [fst snd] in *.
    rewrite !Q2R_plus. split.
    + destruct (Qle_bool 0 l) eqn:E; rewrite Q2R_mult.
      * apply Qle_bool_R in E. rewrite Q2R_0 in E. nra.
      * apply Qle_bool_R' in E. rewrite Q2R_0 in E. nra.
    + destruct (Qle_bool 0 h) eqn:E; rewrite Q2R_mult.
      * apply Qle_bool_R in E. rewrite Q2R_0 in E. nra.
      * apply Qle_bool_R' in E. rewrite Q2R_0 in E. nra.
Qed.

Lemma ppos_sound : forall n p a b x, ppos n p a b = true ->
  0 <= Q2R a <= x -> x <= Q2R b -> 0 < peval p x.
Proof.
  assert (B : forall p a b x, negb (Qle_bool (fst (pbox p a b)) 0) = true ->
              0 <= Q2R a <= x -> x <= Q2R b -> 0 < peval p x).
  { intros p a b x E A B. apply Bool.negb_true_iff in E. apply Qle_bool_R' in E.
    rewrite Q2R_0 in E. pose proof (pbox_sound p a b x A B). lra. }
  induction n as [|n IH]; intros p a b x E A L; cbn [ppos] in E.
  - destruct (negb _) eqn:N in E; [|discriminate]. now apply (B p a b x).
  - destruct (negb _) eqn:N in E; [now apply (B p a b x)|].
    apply andb_prop in E. destruct E as [E1 E2].
    set (m := Qred ((a + b) / (2 # 1))) in *.
    destruct (Rle_dec x (Q2R m)).
    + now apply (IH p a m x).
    + apply (IH p m b x); try easy. split; [|lra].
      assert (Q2R m = (Q2R a + Q2R b) / 2).
      { unfold m. rewrite (Qeq_eqR _ _ (Qred_correct _)). unfold Qdiv. rewrite Q2R_mult, Q2R_plus.
        replace (Q2R (/ (2 # 1))) with (/ 2) by (unfold Q2R; simpl; lra). lra. }
      lra.
Qed.

(** ** exp *)
Fixpoint zfact (n : nat) : Z := match n with O => 1%Z | S n' => (Z.of_nat n * zfact n')%Z end.

Lemma zfact_pos : forall n, (0 < zfact n)%Z.
Proof. induction n; cbn [zfact]; lia. Qed.
Lemma zfact_posR : forall n, 0 < IZR (zfact n).
Proof. intros. apply IZR_lt, zfact_pos. Qed.

Fixpoint psum (n : nat) (y : R) : R :=
  match n with O => 0 | S n' => psum n' y + y ^ n' / IZR (zfact n') end.
Definition exp_up (n : nat) (y : R) : R := psum n y + 3 * (y ^ n / IZR (zfact n)).

Lemma is_derive_term : forall n y, is_derive (fun y => y ^ S n / IZR (zfact (S n))) y (y ^ n / IZR (zfact n)).
Proof.
  intros n y. pose proof (zfact_posR n) as H.
  assert (E : IZR (zfact (S n)) = INR (S n) * IZR (zfact n))
    by (cbn [zfact]; rewrite mult_IZR, INR_IZR_INZ; reflexivity).
  rewrite E. clear E. revert H. generalize (IZR (zfact n)). intros c H.
  assert (K : INR (S n) <> 0) by (apply not_0_INR; lia).
  apply (is_derive_ext (fun y => / (INR (S n) * c) * y ^ S n)).
  { intros; unfold Rdiv; apply Rmult_comm. }
  replace (y ^ n / c) with (/ (INR (S n) * c) * (INR (S n) * 1 * y ^ Nat.pred (S n))).
  - apply is_derive_scal. apply (is_derive_pow (fun x => x)). apply @is_derive_id.
  - cbn [Nat.pred]. field. split; lra.
Qed.

Lemma is_derive_psum : forall n y, is_derive (psum (S n)) y (psum n y).
Proof.
  induction n as [|n IH]; intros y.
  - apply (is_derive_ext (fun _ => 1)).
    { intros t. simpl. field. }
    simpl. auto_derive; easy.
  - change (psum (S (S n))) with (fun y => psum (S n) y + y ^ S n / IZR (zfact (S n))).
    change (psum (S n) y) with (psum n y + y ^ n / IZR (zfact n)).
    apply (is_derive_plus (psum (S n)) (fun y => y ^ S n / IZR (zfact (S n)))).
    + apply IH.
    + apply is_derive_term.
Qed.

Lemma is_derive_exp_up : forall n y, is_derive (exp_up (S n)) y (exp_up n y).
Proof.
  intros n y. unfold exp_up.
  apply (is_derive_plus (psum (S n)) (fun y => 3 * (y ^ S n / IZR (zfact (S n))))).
  - apply is_derive_psum.
  - apply is_derive_scal. apply is_derive_term.
Qed.

Lemma exp_1_le_3 : exp 1 <= 3.
Proof. exact exp_le_3. Qed.

Lemma psum_0 : forall n, psum (S n) 0 = 1.
Proof.
  induction n as [|n IH]. simpl; field. change (psum (S (S n)) 0) with (psum (S n) 0 + 0 ^ S n / IZR (zfact (S n))).
  rewrite IH. pose proof (zfact_posR (S n)). rewrite pow_ne_zero by lia. field. lra.
Qed.

Lemma exp_up_ok : forall n y, 0 <= y <= 1 -> exp y <= exp_up n y.
Proof.
  induction n as [|n IH]; intros y Y.
  - unfold exp_up; simpl. pose proof exp_1_le_3.
    assert (exp y <= exp 1) by (destruct (Req_dec y 1); [subst; lra | left; apply exp_increasing; lra]). lra.
  - destruct (Req_dec y 0) as [->|N].
    + rewrite exp_0. unfold exp_up. rewrite psum_0, pow_ne_zero by lia.
      pose proof (zfact_posR (S n)). unfold Rdiv. lra.
    + assert (D : forall t, is_derive (fun t => exp_up (S n) t - exp t) t (exp_up n t - exp t)).
      { intros t. apply (is_derive_minus (exp_up (S n)) exp). apply is_derive_exp_up. apply is_derive_exp. }
      destruct (MVT_gen (fun t => exp_up (S n) t - exp t) 0 y (fun t => exp_up n t - exp t)) as (c & C & E).
      * intros t _. apply D.
      * intros t _. apply continuity_pt_filterlim. apply (@ex_derive_continuous R_AbsRing R_NormedModule (fun t => exp_up (S n) t - exp t)). eexists. apply D.
      * rewrite Rmin_left, Rmax_right in C by lra.
        specialize (IH c). cbv beta in E.
        assert (exp_up (S n) 0 - exp 0 = 0).
        { rewrite exp_0. unfold exp_up. rewrite psum_0, pow_ne_zero by lia.
          pose proof (zfact_posR (S n)). unfold Rdiv. lra. }
        assert (0 <= exp_up n c - exp c) by (apply Rge_le, Rge_minus, Rle_ge, IH; lra).
        nra.
Qed.
