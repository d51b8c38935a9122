(** The inverse normal CDF in exact arithmetic. *)
From Coq Require Import List ZArith QArith Qreals Reals Lra Lia Bool.
From Flocq Require Import Core.
From Coquelicot Require Import Coquelicot.
From Verif Require Import M_Num M_Outcome M_Random L_Poly.
Import ListNotations.
Local Open Scope R_scope.

(** ** The two branches as real functions *)
Definition pA : list Q := [250662823884 # 100000000000; -1861500062529 # 100000000000;
  4139119773534 # 100000000000; -2544106049637 # 100000000000]%Q.
Definition pB : list Q := [1 # 1; -847351093090 # 100000000000; 2308336743743 # 100000000000;
  -2106224101826 # 100000000000; 313082909833 # 100000000000]%Q.
(** numerator of the derivative of the central branch, scaled by 10^22 *)
Definition pN : list Q := [25066282388400000000000 # 1; -346050600943566440638440 # 1;
  1911061379552598555951174 # 1; -5366007830052488103273213 # 1; 8021680854718231584845946 # 1;
  -5986027314551479600902504 # 1; 1470794490810785193057696 # 1; 796516124944090693380621 # 1]%Q.

Definition fA (r : R) : R := ((-2544106049637/100000000000 * r + 4139119773534/100000000000) * r
  + -1861500062529/100000000000) * r + 250662823884/100000000000.
Definition fB (r : R) : R := (((313082909833/100000000000 * r + -2106224101826/100000000000) * r
  + 2308336743743/100000000000) * r + -847351093090/100000000000) * r + 1.
Definition cen (x : R) : R := x * fA (x * x) / fB (x * x).
Definition tl (r : R) : R :=
  3374754822726147/10000000000000000 + r*(9761690190917186/10000000000000000
  + r*(1607979714918209/10000000000000000 + r*(276438810333863/10000000000000000
  + r*(38405729373609/10000000000000000 + r*(3951896511919/10000000000000000
  + r*(321767881768/10000000000000000 + r*(2888167364/10000000000000000
  + r*(3960315187/10000000000000000)))))))).
(** lower half *)
Definition half_inv (q : R) : R := if Rlt_bool (Rabs (q - 1/2)) (42/100) then cen (q - 1/2)
  else - tl (ln (- ln q)).

Lemma nabs_R : forall x : R, nabs x = Rabs x.
Proof.
  intros x. unfold nabs, n0; cbn. destruct (Rlt_bool_spec x 0).
  - now rewrite Rabs_left. - now rewrite Rabs_pos_eq.
Qed.

Lemma inv_cdf_R : forall q : R, 0 < q < 1 ->
  snd_inv_cdf q = Ok (if Rlt_bool (1/2) q then - half_inv (1 - q) else half_inv q).
Proof.
  intros q Q. unfold snd_inv_cdf. cbn -[nabs lit nhalf a0 a1 a2 a3 b0 b1 b2 b3 c0 c1 c2 c3 c4 c5 c6 c7 c8].
  unfold n0, n1; cbn -[nabs lit nhalf a0 a1 a2 a3 b0 b1 b2 b3 c0 c1 c2 c3 c4 c5 c6 c7 c8].
  rewrite Rle_bool_false by lra. rewrite Rle_bool_false by lra. cbn [orb].
  rewrite nabs_R.
  replace (nhalf : R) with (1/2) by (unfold nhalf, lit; cbn; lra).
  replace (lit 42 2 : R) with (42/100) by (unfold lit; cbn; lra).
  assert (HA : forall r, ((a3 * r + a2) * r + a1) * r + a0 = fA r) by reflexivity.
  assert (HB : forall r, (((b3 * r + b2) * r + b1) * r + b0) * r + 1 = fB r) by reflexivity.
  assert (HT : forall r, c0 + r * (c1 + r * (c2 + r * (c3 + r * (c4 + r * (c5 + r * (c6 + r * (c7 + r * c8))))))) = tl r)
    by reflexivity.
  unfold half_inv, cen.
  destruct (Rlt_bool_spec (1/2) q).
  - destruct (Rlt_bool _ _).
    + rewrite HA, HB. reflexivity.
    + rewrite HT. f_equal. lra.
  - destruct (Rlt_bool _ _).
    + rewrite HA, HB. reflexivity.
    + now rewrite HT.
Qed.

(** ** Central branch *)
Lemma fA_peval : forall r, fA r = peval pA r.
Proof. intros. unfold fA, pA, peval, Q2R; simpl. lra. Qed.
Lemma fB_peval : forall r, fB r = peval pB r.
Proof. intros. unfold fB, pB, peval, Q2R; simpl. lra. Qed.

Lemma dom_Q : forall r, 0 <= r <= 1773/10000 -> 0 <= Q2R 0 <= r /\ r <= Q2R (1773#10000).
Proof. intros. unfold Q2R; simpl. lra. Qed.

Lemma fB_pos : forall r, 0 <= r <= 1773/10000 -> 0 < fB r.
Proof.
  intros r H. rewrite fB_peval. destruct (dom_Q r H).
  apply (ppos_sound 12 pB 0 (1773#10000) r); try easy.
Qed.
Lemma pN_pos : forall r, 0 <= r <= 1773/10000 -> 0 < peval pN r.
Proof.
  intros r H. destruct (dom_Q r H).
  apply (ppos_sound 12 pN 0 (1773#10000) r); try easy.
Qed.

Definition dcen (x : R) : R := peval pN (x * x) / 10000000000000000000000 / (fB (x * x) * fB (x * x)).

Lemma is_derive_cen : forall x, fB (x * x) <> 0 -> is_derive cen x (dcen x).
Proof.
  intros x B. unfold cen, dcen, fA, fB in *. auto_derive.
  - exact B.
  - unfold peval, pN, Q2R. simpl. field.
    match goal with |- ?a <> 0 => replace a with (100000000000 * 
      (((((313082909833/100000000000 * (x*x) + -2106224101826/100000000000) * (x*x)
  + 2308336743743/100000000000) * (x*x) + -847351093090/100000000000) * (x*x) + 1))) by field end.
    nra.
Qed.

Lemma cen_increasing : forall x y, -421/1000 < x -> x < y -> y < 421/1000 -> cen x < cen y.
Proof.
  intros x y X XY Y.
  apply (incr_function cen (Finite (-421/1000)) (Finite (421/1000)) dcen); try easy.
  - intros z Z1 Z2. cbn in Z1, Z2. apply is_derive_cen. assert (0 < fB (z*z)) by (apply fB_pos; nra). lra.
  - intros z Z1 Z2. cbn in Z1, Z2. unfold dcen.
    assert (0 < fB (z*z)) by (apply fB_pos; nra).
    assert (0 < peval pN (z*z)) by (apply pN_pos; nra).
    apply Rdiv_lt_0_compat; [lra|nra].
Qed.

Lemma cen_0 : cen 0 = 0.
Proof. unfold cen. rewrite Rmult_0_l. unfold Rdiv. apply Rmult_0_l. Qed.
Lemma cen_opp : forall x, cen (- x) = - cen x.
Proof. intros. unfold cen. replace (- x * - x) with (x * x) by ring. unfold Rdiv. ring. Qed.

(** ** Tail branch *)
Lemma horner_le : forall c r s f g, 0 < r <= s -> 0 <= f <= g -> 0 <= c -> 0 <= c + r * f <= c + s * g.
Proof. intros. nra. Qed.

Lemma tl_increasing : forall r s, 0 < r -> r < s -> tl r < tl s.
Proof.
  intros r s R0 RS. unfold tl.
  apply Rplus_lt_compat_l.
  match goal with |- r * ?f < s * ?g => assert (0 < f <= g) end.
  { match goal with |- 0 < ?c + r * ?f <= _ + s * ?g => assert (0 <= f <= g) end.
    { repeat (apply horner_le; [lra| |lra]). lra. }
    nra. }
  nra.
Qed.
Lemma tl_pos : forall r, 0 < r -> 0 < tl r.
Proof.
  intros r R0. unfold tl.
  match goal with |- 0 < _ + r * ?f => assert (0 <= f <= f) end.
  { repeat (apply horner_le; [lra| |lra]). lra. }
  nra.
Qed.

Lemma ln_008 : 1 < - ln (8/100).
Proof.
  assert (exp 1 < 100/8) by (pose proof exp_le_3; lra).
  apply ln_increasing in H; [|apply exp_pos]. rewrite ln_exp in H.
  replace (8/100) with (/ (100/8)) by lra. rewrite ln_Rinv by lra. lra.
Qed.

Lemma exp_c : exp (463264796/1000000000) <= 158925411530/100000000000.
Proof.
  eapply Rle_trans. apply (exp_up_ok 12); lra.
  unfold exp_up, psum, zfact. simpl Z.of_nat. simpl Z.mul. lra.
Qed.
Lemma exp_e : exp (63143216075/100000000000) <= 188030154654/100000000000.
Proof.
  eapply Rle_trans. apply (exp_up_ok 14); lra.
  unfold exp_up, psum, zfact. simpl Z.of_nat. simpl Z.mul. lra.
Qed.

Lemma lnln_008 : 926529592/1000000000 <= ln (- ln (8/100)).
Proof.
  assert (E1 : exp (926529592/1000000000) <= 25257286430/10000000000).
  { replace (926529592/1000000000) with (463264796/1000000000 + 463264796/1000000000) by lra.
    rewrite exp_plus. pose proof exp_c. pose proof (exp_pos (463264796/1000000000)). nra. }
  assert (E2 : exp (25257286430/10000000000) <= 100/8).
  { replace (25257286430/10000000000) with
      ((63143216075/100000000000 + 63143216075/100000000000)
       + (63143216075/100000000000 + 63143216075/100000000000)) by lra.
    rewrite !exp_plus. pose proof exp_e. pose proof (exp_pos (63143216075/100000000000)).
    assert (exp (63143216075 / 100000000000) * exp (63143216075 / 100000000000)
            <= 188030154654/100000000000 * (188030154654/100000000000)) by nra.
    nra. }
  assert (E3 : 25257286430/10000000000 <= - ln (8/100)).
  { replace (8/100) with (/ (100/8)) by lra. rewrite ln_Rinv by lra. rewrite Ropp_involutive.
    rewrite <- (ln_exp (25257286430/10000000000)).
    destruct E2 as [E2|E2]; [left; apply ln_increasing; [apply exp_pos|easy] | right; now rewrite E2]. }
  rewrite <- (ln_exp (926529592/1000000000)).
  assert (exp (926529592/1000000000) <= - ln (8/100)) by lra.
  destruct H as [H|H]; [left; apply ln_increasing; [apply exp_pos|easy] | right; now rewrite H].
Qed.

Lemma junction : cen (42/100) < tl (ln (- ln (8/100))).
Proof.
  apply Rlt_le_trans with (tl (926529592/1000000000)).
  - unfold cen, fA, fB, tl. 
    apply Rmult_lt_reg_r with ((((313082909833/100000000000 * (42/100*(42/100)) + -2106224101826/100000000000) * (42/100*(42/100))
  + 2308336743743/100000000000) * (42/100*(42/100)) + -847351093090/100000000000) * (42/100*(42/100)) + 1).
    { lra. }
    unfold Rdiv at 1. rewrite Rmult_assoc, Rinv_l by lra. lra.
  - destruct lnln_008 as [H|H].
    + left. apply tl_increasing; lra.
    + right. now rewrite H.
Qed.

Lemma tail_r_pos : forall q, 0 < q <= 8/100 -> 0 < ln (- ln q).
Proof.
  intros q Q. rewrite <- ln_1. apply ln_increasing; [lra|].
  pose proof ln_008. destruct (Req_dec q (8/100)) as [->|N]; [easy|].
  assert (ln q < ln (8/100)) by (apply ln_increasing; lra). lra.
Qed.

Lemma tail_decreasing : forall p q, 0 < p -> p < q -> q <= 8/100 ->
  tl (ln (- ln q)) < tl (ln (- ln p)).
Proof.
  intros p q P PQ Q. pose proof ln_008.
  apply tl_increasing. { apply tail_r_pos; lra. }
  assert (ln q <= ln (8/100)).
  { destruct (Req_dec q (8/100)) as [->|N]; [lra|]. left; apply ln_increasing; lra. }
  assert (ln p < ln q) by (apply ln_increasing; lra).
  apply ln_increasing; lra.
Qed.

(** ** Both together *)
Lemma half_inv_central : forall q, 8/100 < q <= 1/2 -> half_inv q = cen (q - 1/2).
Proof.
  intros q Q. unfold half_inv. rewrite Rlt_bool_true; [easy|].
  rewrite Rabs_left1 by lra. lra.
Qed.
Lemma half_inv_tail : forall q, 0 < q <= 8/100 -> half_inv q = - tl (ln (- ln q)).
Proof.
  intros q Q. unfold half_inv. rewrite Rlt_bool_false; [easy|].
  rewrite Rabs_left1 by lra. lra.
Qed.

Lemma half_inv_increasing : forall p q, 0 < p -> p < q -> q <= 1/2 -> half_inv p < half_inv q.
Proof.
  intros p q P PQ Q.
  destruct (Rle_dec q (8/100)) as [Q8|Q8].
  - rewrite !half_inv_tail by lra. pose proof (tail_decreasing p q P PQ Q8). lra.
  - rewrite (half_inv_central q) by lra.
    destruct (Rle_dec p (8/100)) as [P8|P8].
    + rewrite half_inv_tail by lra. pose proof junction as J.
      assert (cen (- (42/100)) < cen (q - 1/2)) by (apply cen_increasing; lra).
      rewrite cen_opp in H.
      assert (tl (ln (- ln (8/100))) <= tl (ln (- ln p))).
      { destruct (Req_dec p (8/100)) as [->|N]; [lra|]. left; apply tail_decreasing; lra. }
      lra.
    + rewrite half_inv_central by lra. apply cen_increasing; lra.
Qed.

Lemma half_inv_half : half_inv (1/2) = 0.
Proof. rewrite half_inv_central by lra. replace (1/2 - 1/2) with 0 by lra. apply cen_0. Qed.

Lemma half_inv_neg : forall q, 0 < q < 1/2 -> half_inv q < 0.
Proof. intros. rewrite <- half_inv_half. apply half_inv_increasing; lra. Qed.
