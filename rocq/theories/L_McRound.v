(** Rounding errors of a discounted mean in binary64. *)
From Coq Require Import List ZArith Bool Lia Reals Lra.
From Flocq Require Import Core BinarySingleNaN Plus_error Relative.
From Verif Require Import M_Num M_Outcome S_Double S_Model S_MonteCarlo S_Order L_B64 L_Order.
Import ListNotations.
Local Open Scope R_scope.

Definition uu : R := / 2 * bpow radix2 (-52).
Definition eta0 : R := / 2 * bpow radix2 (-1074).
Lemma uu_pos : 0 < uu < 1 / 2.
Proof.
  unfold uu. pose proof (bpow_gt_0 radix2 (-52)). pose proof (bpow_lt radix2 (-52) 0 eq_refl) as H1. change (bpow radix2 0) with 1 in H1. lra.
Qed.
Lemma eta0_pos : 0 < eta0.
Proof. unfold eta0. pose proof (bpow_gt_0 radix2 (-1074)). lra. Qed.

Lemma finite_rnd : forall z r, finite z -> val z = fl r -> val z = rnd r.
Proof.
  intros z r F E. pose proof (val_bounds z F) as B. rewrite E in *. unfold fl, clamp in *.
  revert B. unfold Rmax, Rmin. destruct (Rle_dec INF (rnd r)), (Rle_dec _ _); lra.
Qed.
Lemma fmt : forall x, finite x -> generic_format radix2 (FLT_exp (-1074) 53) (val x).
Proof. intros x F. rewrite val_finite by exact F. apply (generic_format_B2R 53 1024 x). Qed.

Lemma add_finite : forall x y, finite (b64_add x y) -> finite x /\ finite y.
Proof. intros [s|[|]| |s m e H] [s'|[|]| |s' m' e' H'] F; now split. Qed.
Lemma mul_finite : forall x y, finite (b64_mul x y) -> finite x /\ finite y.
Proof. intros [s|[|]| |s m e H] [s'|[|]| |s' m' e' H'] F; now split. Qed.
Lemma div_finite : forall x y, finite (b64_div x y) -> finite x.
Proof. intros [s|[|]| |s m e H] [s'|[|]| |s' m' e' H'] F; easy. Qed.

Lemma add_error : forall x y, finite (b64_add x y) -> 
  exists e, Rabs e <= uu /\ val (b64_add x y) = (val x + val y) * (1 + e).
Proof.
  intros x y F. destruct (add_finite x y F) as [FX FY]. destruct (val_add x y FX FY) as [_ V].
  rewrite (finite_rnd _ _ F V). destruct (FLT_plus_error_N_ex radix2 (-1074) 53 (fun z => negb (Z.even z)) (val x) (val y) (fmt x FX) (fmt y FY)) as (e & E1 & E2).
  exists e. split; [|exact E2]. eapply Rle_trans; [exact E1|]. change (u_ro radix2 53) with uu.
  pose proof uu_pos. apply Rmult_le_reg_r with (1 + uu); [lra|]. unfold Rdiv. rewrite Rmult_assoc, Rinv_l by lra. nra.
Qed.
Lemma rnd_error : forall r, exists e n, Rabs e <= uu /\ Rabs n <= eta0 /\ rnd r = r * (1 + e) + n.
Proof.
  intros r. destruct (error_N_FLT radix2 (-1074) 53 eq_refl (fun z => negb (Z.even z)) r) as (e & n & E1 & E2 & _ & E3).
  exists e, n. auto.
Qed.

Lemma sum_error : forall l a, 0 <= val a -> Forall nonneg l -> finite (fold_left b64_add l a) ->
  finite a /\ Forall (fun x => finite x /\ 0 <= val x) l /\
  (val a + Rsum (map val l)) * (1 - uu) ^ length l <= val (fold_left b64_add l a) <= (val a + Rsum (map val l)) * (1 + uu) ^ length l.
Proof.
  pose proof uu_pos as U. induction l as [|x l IH]; intros a A P F; cbn [fold_left length map Rsum fold_right pow] in *.
  - split; [exact F|]. split; [constructor|]. lra.
  - inversion P as [|? ? X P']; subst.
    assert (A' : nonneg (b64_add a x)) by (apply add_nonneg; [now intros _|exact X]).
    assert (FA : finite (b64_add a x) /\ 0 <= val (b64_add a x)).
    { assert (FF : finite (b64_add a x)).
      { clear - F. revert F. generalize (b64_add a x). induction l as [|y l IH]; intros b F; cbn [fold_left] in F; [exact F|].
        now destruct (add_finite _ _ (IH _ F)). }
      split; [exact FF|]. apply A'. now apply finite_notnan. }
    destruct FA as [FA PA]. destruct (add_finite _ _ FA) as [FX FY]. destruct (add_error a x FA) as (e & E & V).
    specialize (X (finite_notnan x FY)). destruct (IH (b64_add a x) PA P' F) as (_ & FL & B1 & B2).
    split; [exact FX|]. split; [now constructor|]. fold (Rsum (map val l)) in *.
    assert (SP : 0 <= Rsum (map val l)).
    { clear - FL. induction FL as [|y l [_ Y] _ IH]; cbn; [lra|]. fold (Rsum (map val l)). lra. }
    apply Rabs_le_inv in E. rewrite V in B1, B2. set (S := Rsum (map val l)) in *. set (r := val (fold_left b64_add l (b64_add a x))) in *.
    assert (Q1 : 0 <= (1 - uu) ^ length l) by (apply pow_le; lra). assert (Q2 : 0 <= (1 + uu) ^ length l) by (apply pow_le; lra).
    split.
    + eapply Rle_trans; [|exact B1]. rewrite <- Rmult_assoc. apply Rmult_le_compat_r; [exact Q1|]. nra.
    + eapply Rle_trans; [exact B2|]. rewrite <- Rmult_assoc. apply Rmult_le_compat_r; [exact Q2|]. nra.
Qed.

(** The sum of the program starts with 0, which costs nothing. *)
Lemma sum0_error : forall l, l <> [] -> Forall nonneg l -> finite (fold_left b64_add l (b64_ofZ 0)) ->
  Forall (fun x => finite x /\ 0 <= val x) l /\
  Rsum (map val l) * (1 - uu) ^ (length l - 1) <= val (fold_left b64_add l (b64_ofZ 0)) <= Rsum (map val l) * (1 + uu) ^ (length l - 1).
Proof.
  intros [|x l] NE P F; [easy|]. inversion P as [|? ? X P']; subst. cbn [fold_left] in *.
  assert (FA : finite (b64_add (b64_ofZ 0) x)).
  { clear - F. revert F. generalize (b64_add (b64_ofZ 0) x). induction l as [|y l IH]; intros b F; cbn [fold_left] in F; [exact F|].
    now destruct (add_finite _ _ (IH _ F)). }
  destruct (add_finite _ _ FA) as [F0 FX]. destruct (val_add _ _ F0 FX) as [_ V].
  assert (Z : val (b64_ofZ 0) = 0) by exact n0_val. rewrite Z, Rplus_0_l, fl_val in V by (auto using finite_notnan).
  specialize (X (finite_notnan x FX)).
  destruct (sum_error l (b64_add (b64_ofZ 0) x)) as (_ & FL & B); [lra|exact P'|exact F|]. rewrite V in B.
  split; [now constructor|]. cbn [length map Rsum fold_right]. fold (Rsum (map val l)). rewrite Nat.sub_succ, Nat.sub_0_r. exact B.
Qed.

Lemma ofZ_exact : forall N, (1 <= N <= INT_MAX)%Z -> finite (b64_ofZ N) /\ val (b64_ofZ N) = IZR N.
Proof.
  intros N H. destruct (val_ofZ N) as [NN V].
  assert (G : generic_format radix2 (FLT_exp (-1074) 53) (IZR N)).
  { apply generic_format_FLT. exists (Float radix2 N 0); [unfold F2R; cbn; lra| |cbn; lia]. cbn [Fnum]. unfold INT_MAX in H.
    change (radix2 ^ 53)%Z with 9007199254740992%Z. lia. }
  assert (B : IZR N < INF).
  { apply Rlt_trans with (bpow radix2 53); [|now apply bpow_lt]. change (bpow radix2 53) with 9007199254740992. apply IZR_lt. unfold INT_MAX in H. lia. }
  assert (P : 0 < IZR N) by (apply IZR_lt; lia).
  assert (E : val (b64_ofZ N) = IZR N).
  { rewrite V. unfold fl. unfold rnd. rewrite round_generic by (apply valid_rnd_N || exact G). apply clamp_id. lra. }
  split; [|exact E]. destruct (notnan_cases _ NN) as [F|[I|I]]; [exact F| |]; rewrite I in E; [rewrite val_ninf in E|rewrite val_pinf in E]; lra.
Qed.

(** (1+u)^k - 1 and 1 - (1-u)^k are at most 2ku. *)
Lemma pow_up : forall k, INR k * uu <= 1 / 2 -> (1 + uu) ^ k <= 1 + 2 * (INR k * uu).
Proof.
  intros k H. pose proof uu_pos as U. apply Rle_trans with (exp (INR k * uu)).
  - clear H. induction k as [|k IH]; [cbn; rewrite Rmult_0_l, exp_0; lra|]. cbn [pow]. rewrite S_INR. replace ((INR k + 1) * uu) with (uu + INR k * uu) by ring. rewrite exp_plus.
    apply Rmult_le_compat; [lra|apply pow_le; lra|apply exp_ineq1_le|exact IH].
  - set (x := INR k * uu) in *. assert (0 <= x) by (apply Rmult_le_pos; [apply pos_INR|lra]).
    pose proof (exp_ineq1_le (- x)) as E. pose proof (exp_pos x) as Q. pose proof (exp_plus x (- x)) as M. rewrite Rplus_opp_r, exp_0 in M.
    assert (exp x * (1 - x) <= 1) by nra. nra.
Qed.
Lemma pow_down : forall k, 1 - INR k * uu <= (1 - uu) ^ k.
Proof.
  intros k. pose proof uu_pos as U. induction k as [|k IH]; [cbn; lra|]. cbn [pow]. rewrite S_INR.
  destruct (Rle_or_lt (1 - INR k * uu) 0) as [L|L].
  - assert (0 <= (1 - uu) * (1 - uu) ^ k) by (apply Rmult_le_pos; [lra|apply pow_le; lra]). lra.
  - pose proof (pos_INR k). assert ((1 - uu) * (1 - INR k * uu) <= (1 - uu) * (1 - uu) ^ k) by (apply Rmult_le_compat_l; lra). nra.
Qed.

(** The discounted mean. *)
Lemma mean_error : forall N df l, (1 <= N <= INT_MAX)%Z -> length l = Z.to_nat N -> Forall nonneg l -> nonneg df ->
  finite (b64_mul (b64_div (fold_left b64_add l (b64_ofZ 0)) (b64_ofZ N)) df) ->
  Forall (fun x => finite x /\ 0 <= val x) l /\ finite df /\ 0 <= val df /\
  Rabs (val (b64_mul (b64_div (fold_left b64_add l (b64_ofZ 0)) (b64_ofZ N)) df) - val df * Rmean (map val l)) <=
    IZR (N + 1) * bpow radix2 (-52) * (val df * Rmean (map val l)) + bpow radix2 (-1074) * (1 + val df).
Proof.
  intros N df l LN LL P D F. pose proof uu_pos as U. pose proof eta0_pos as E0.
  destruct (mul_finite _ _ F) as [F1 FD]. pose proof (div_finite _ _ F1) as FS. specialize (D (finite_notnan _ FD)).
  destruct (ofZ_exact N LN) as [FN VN].
  assert (NE : l <> []) by (intros ->; cbn in LL; lia).
  destruct (sum0_error l NE P FS) as (FL & B1 & B2). split; [exact FL|]. split; [exact FD|]. split; [exact D|].
  assert (NP : 1 <= IZR N) by (apply IZR_le; lia).
  destruct (val_div _ _ FS FN ltac:(rewrite VN; lra)) as [_ V1]. apply (finite_rnd _ _ F1) in V1. rewrite VN in V1.
  destruct (val_mul _ _ F1 FD) as [_ V2]. apply (finite_rnd _ _ F) in V2.
  destruct (rnd_error (val (fold_left b64_add l (b64_ofZ 0)) / IZR N)) as (e1 & n1 & E1 & N1 & Q1). rewrite Q1 in V1.
  destruct (rnd_error (val (b64_div (fold_left b64_add l (b64_ofZ 0)) (b64_ofZ N)) * val df)) as (e2 & n2 & E2 & N2 & Q2). rewrite Q2 in V2.
  assert (SP : 0 <= Rsum (map val l)).
  { clear - FL. induction FL as [|y l [_ Y] _ IH]; cbn; [lra|]. fold (Rsum (map val l)). lra. }
  assert (ML : Rmean (map val l) = Rsum (map val l) / IZR N).
  { unfold Rmean. rewrite map_length, LL, INR_IZR_INZ, Z2Nat.id by lia. reflexivity. }
  rewrite ML. set (S := Rsum (map val l)) in *. set (s := val (fold_left b64_add l (b64_ofZ 0))) in *.
  assert (K : exists k, Z.to_nat N = Datatypes.S k) by (exists (Z.to_nat N - 1)%nat; lia). destruct K as [k K]. rewrite LL, K in B1, B2.
  rewrite Nat.sub_succ, Nat.sub_0_r in B1, B2.
  assert (KN : IZR (N + 1) = INR (Datatypes.S (Datatypes.S k))) by (rewrite INR_IZR_INZ; f_equal; lia).
  set (m := S / IZR N) in *. assert (MP : 0 <= m) by (apply Rmult_le_pos; [lra|left; apply Rinv_0_lt_compat; lra]).
  assert (Bm : m * (1 - uu) ^ k <= s / IZR N <= m * (1 + uu) ^ k).
  { unfold m, Rdiv. assert (0 < / IZR N) by (apply Rinv_0_lt_compat; lra). split; nra. }
  rewrite V1 in V2. set (d := val df) in *. set (q := s / IZR N) in *. set (v := val (b64_mul _ df)) in *.
  set (P1 := (1 + uu) ^ k) in *. set (P0 := (1 - uu) ^ k) in *.
  assert (HP0 : 0 <= P0) by (apply pow_le; lra). assert (HP1 : 0 <= P1) by (apply pow_le; lra).
  apply Rabs_le_inv in E1, E2, N1, N2.
  assert (Q : 0 <= q) by nra.
  assert (UP : v <= d * m * (P1 * ((1 + uu) * (1 + uu))) + eta0 * (1 + (1 + uu) * d)).
  { assert (A1 : q * (1 + e1) + n1 <= m * P1 * (1 + uu) + eta0) by nra.
    assert (A2 : (q * (1 + e1) + n1) * d * (1 + e2) <= (m * P1 * (1 + uu) + eta0) * d * (1 + uu)).
    { apply Rle_trans with ((m * P1 * (1 + uu) + eta0) * d * (1 + e2)).
      - apply Rmult_le_compat_r; [lra|]. now apply Rmult_le_compat_r.
      - apply Rmult_le_compat_l; [|lra]. apply Rmult_le_pos; [|lra]. assert (0 <= m * P1 * (1 + uu)) by (apply Rmult_le_pos; [apply Rmult_le_pos; lra|lra]). lra. }
    nra. }
  assert (LO : d * m * (P0 * ((1 - uu) * (1 - uu))) - eta0 * (1 + (1 + uu) * d) <= v).
  { assert (A0 : 0 <= m * P0 * (1 - uu)) by (apply Rmult_le_pos; [apply Rmult_le_pos; lra|lra]).
    assert (A1 : m * P0 * (1 - uu) - eta0 <= q * (1 + e1) + n1) by nra.
    assert (A2 : (m * P0 * (1 - uu) - eta0) * d * (1 + e2) <= (q * (1 + e1) + n1) * d * (1 + e2)).
    { apply Rmult_le_compat_r; [lra|]. now apply Rmult_le_compat_r. }
    assert (A3 : m * P0 * (1 - uu) * d * (1 - uu) <= m * P0 * (1 - uu) * d * (1 + e2)) by (apply Rmult_le_compat_l; [apply Rmult_le_pos; lra|lra]).
    assert (A4 : eta0 * d * (1 + e2) <= eta0 * d * (1 + uu)) by (apply Rmult_le_compat_l; [apply Rmult_le_pos; lra|lra]).
    nra. }
  replace (P1 * ((1 + uu) * (1 + uu))) with ((1 + uu) ^ Datatypes.S (Datatypes.S k)) in UP by (cbn [pow]; unfold P1; ring).
  replace (P0 * ((1 - uu) * (1 - uu))) with ((1 - uu) ^ Datatypes.S (Datatypes.S k)) in LO by (cbn [pow]; unfold P0; ring).
  assert (KU : INR (Datatypes.S (Datatypes.S k)) * uu <= 1 / 2).
  { rewrite <- KN. unfold uu. assert (IZR (N + 1) <= bpow radix2 52).
    { change (bpow radix2 52) with 4503599627370496. apply IZR_le. unfold INT_MAX in LN. lia. }
    pose proof (bpow_gt_0 radix2 (-52)). pose proof (bpow_plus radix2 52 (-52)) as BB.
    change (bpow radix2 (52 + -52)) with 1 in BB. nra. }
  pose proof (pow_up _ KU) as HU. pose proof (pow_down (Datatypes.S (Datatypes.S k))) as HD.
  rewrite <- KN in HU, HD. set (U1 := (1 + uu) ^ Datatypes.S (Datatypes.S k)) in *. set (U0 := (1 - uu) ^ Datatypes.S (Datatypes.S k)) in *.
  replace (bpow radix2 (-52)) with (2 * uu) by (unfold uu; lra). replace (bpow radix2 (-1074)) with (2 * eta0) by (unfold eta0; lra).
  assert (X : 0 <= d * m) by now apply Rmult_le_pos.
  assert (Y : 0 <= IZR (N + 1) * uu) by (apply Rmult_le_pos; [apply IZR_le; lia|lra]).
  assert (W : eta0 * (1 + (1 + uu) * d) <= 2 * eta0 * (1 + d)).
  { replace (2 * eta0 * (1 + d)) with (eta0 * (2 * (1 + d))) by ring. apply Rmult_le_compat_l; [lra|]. nra. }
  apply Rabs_le. split.
  - assert (d * m * (1 - IZR (N + 1) * uu) <= d * m * U0) by now apply Rmult_le_compat_l. nra.
  - assert (d * m * U1 <= d * m * (1 + 2 * (IZR (N + 1) * uu))) by now apply Rmult_le_compat_l. nra.
Qed.
