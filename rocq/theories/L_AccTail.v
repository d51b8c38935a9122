(** The quantile function of the code in the tails, in exact arithmetic. *)
From Coq Require Import List ZArith Reals Lra Lia Bool.
From Flocq Require Import Core.
From Coquelicot Require Import Coquelicot.
From Verif Require Import M_Num M_Outcome M_Random S_Prob S_Normal L_Poly L_ZPoly L_Gauss L_Normal L_InvCdf L_Accuracy.
Import ListNotations.
Local Open Scope R_scope.

(** ** The tail: with r = ln (- ln q), q is the upper tail and x = tl r *)
Definition tI : list Z := [3374754822726147; 9761690190917186; 1607979714918209; 276438810333863; 38405729373609;
  3951896511919; 321767881768; 2888167364; 3960315187]%Z.
Definition tM : Z := (10 ^ 16)%Z.
(** Approximates the logarithm of the ratio of the densities, times 10^24. *)
Definition kI : list Z :=
  [-3302729184076433864; 16951370987218178773; -40879365187701900655; 63306086750460926417;
   -71212658516434566581; 60579253578984357692; -38981854330185960026; 18839033338287667865;
   -6850006945385856956; 1897106833666499622; -403178197502238437; 63557996666503203;
   -6569541569185775; 324273952792779]%Z.
Definition kM : Z := (10 ^ 24)%Z.

Definition T0 (r : R) : R := zev tI r / IZR tM.
Definition T1 (r : R) : R := zev (zder tI) r / IZR tM.
Definition T2 (r : R) : R := zev (zder (zder tI)) r / IZR tM.
Lemma T0_tl : forall r, T0 r = tl r.
Proof. intros r. unfold T0, tl, tI. change (IZR tM) with 10000000000000000. cbn [zev]. field. Qed.
Lemma over_tM : forall p r, is_derive (fun r => zev p r / IZR tM) r (zev (zder p) r / IZR tM).
Proof.
  intros p y. apply (is_derive_ext (fun y => / IZR tM * zev p y)); [intros; unfold Rdiv; apply Rmult_comm|].
  unfold Rdiv. rewrite Rmult_comm. apply is_derive_scal. apply zev_derive.
Qed.
Lemma over_kM : forall p r, is_derive (fun r => zev p r / IZR kM) r (zev (zder p) r / IZR kM).
Proof.
  intros p y. apply (is_derive_ext (fun y => / IZR kM * zev p y)); [intros; unfold Rdiv; apply Rmult_comm|].
  unfold Rdiv. rewrite Rmult_comm. apply is_derive_scal. apply zev_derive.
Qed.

Lemma in_range : forall r, 92/100 <= r <= 34/10 -> IZR 92 / IZR 100 <= r <= (IZR 92 + IZR 248) / IZR 100.
Proof. intros y Y. lra. Qed.
Ltac zchk f p := let H := fresh in assert (H : zcheck f p 92 248 100 = true) by (vm_compute; reflexivity); exact (zcheck_ok f p 92 248 100 H _ (in_range _ ltac:(eassumption))).

Lemma t1_pos : forall r, 92/100 <= r <= 34/10 -> 0 < zev (zder tI) r.
Proof.
  intros r Y. assert (0 <= zev (zsub (zder tI) [1%Z]) r) by zchk 12%nat (zsub (zder tI) [1%Z]).
  rewrite zev_sub in H. cbn [zev] in H. lra.
Qed.

(** e^r, times 31!, from below and from above. *)
Definition eL : list Z := zscal 31 (zexp 30).
Definition eU : list Z := zadd eL (repeat 0%Z 31 ++ [81%Z]).
Definition fa : Z := zfact 31.
Lemma fa_pos : 0 < IZR fa.
Proof. apply zfact_posR. Qed.
Lemma exp_between : forall r, 0 <= r <= 4 -> zev eL r <= IZR fa * exp r <= zev eU r.
Proof.
  intros r R0. pose proof (exp_low 31 r ltac:(lra)) as L. pose proof (exp_high 31 r R0) as U. pose proof fa_pos as F0.
  assert (E : zev eL r = IZR fa * psum 31 r).
  { unfold eL. rewrite zev_scal, zexp_psum. unfold fa. change (zfact 31) with (Z.of_nat 31 * zfact 30)%Z. rewrite mult_IZR.
    change (IZR (Z.of_nat 31)) with 31. ring. }
  split; [rewrite E; apply Rmult_le_compat_l; lra|].
  unfold eU. rewrite zev_add, E, zev_monomial. fold fa in U.
  apply (Rmult_le_compat_l (IZR fa)) in U; [|lra].
  replace (IZR fa * (psum 31 r + 81 * (r ^ 31 / IZR fa))) with (IZR fa * psum 31 r + 81 * r ^ 31) in U by (field; lra). exact U.
Qed.

(** 31! 10^24 10^32 T1 (K' - k'), with e^r replaced by a polynomial. *)
Definition gapI (e : list Z) : list Z :=
  zsub (zadd (zscal (fa * kM) (zsub (zscal (tM * tM) (zder (zder tI))) (zmul tI (zmul (zder tI) (zder tI)))))
             (zscal (tM * tM * kM) (zmul (zsub e [fa]) (zder tI))))
       (zscal (tM * tM * fa) (zmul (zder tI) (zder kI))).
Definition tolI : list Z := zscal (tM * tM * fa * 10 ^ 13) (zder tI).

Definition dK (r : R) : R := T2 r / T1 r - T0 r * T1 r - 1 + exp r.
Lemma dK_close : forall r, 92/100 <= r <= 34/10 -> Rabs (dK r - zev (zder kI) r / IZR kM) <= 1/100000000000.
Proof.
  intros r Y. pose proof (t1_pos r Y) as P. pose proof (exp_between r ltac:(lra)) as (EL & EU). pose proof fa_pos as F0.
  assert (A : 0 <= zev (zadd (gapI eL) tolI) r) by zchk 14%nat (zadd (gapI eL) tolI).
  assert (B : 0 <= zev (zsub tolI (gapI eU)) r) by zchk 14%nat (zsub tolI (gapI eU)).
  rewrite zev_add in A. rewrite zev_sub in B. unfold gapI, tolI in A, B.
  rewrite !zev_sub, !zev_add, !zev_scal, !zev_sub, !zev_scal, !zev_mul, !zev_sub in A, B. rewrite !mult_IZR in A. rewrite !mult_IZR in B.
  change (zev [fa] r) with (IZR fa + r * 0) in A, B. rewrite Rmult_0_r, Rplus_0_r in A, B.
  unfold dK, T0, T1, T2.
  change (IZR (10 ^ 13)) with 10000000000000 in A, B. change (IZR tM) with 10000000000000000 in *. change (IZR kM) with 1000000000000000000000000 in *.
  set (t0 := zev tI r) in *. set (t1 := zev (zder tI) r) in *. set (t2 := zev (zder (zder tI)) r) in *. set (k1 := zev (zder kI) r) in *.
  set (f := IZR fa) in *. set (l := zev eL r) in *. set (u := zev eU r) in *. set (x := exp r) in *.
  assert (U0 : 0 < f * t1) by (now apply Rmult_lt_0_compat).
  assert (XL : (l - f) * t1 <= (f * x - f) * t1) by (apply Rmult_le_compat_r; lra).
  assert (XU : (f * x - f) * t1 <= (u - f) * t1) by (apply Rmult_le_compat_r; lra).
  apply Rabs_le_between. split; apply (Rmult_le_reg_r (100000000000000000000000000000000 * 1000000000000000000000000 * (f * t1))); [lra| |lra|];
    replace ((t2 / 10000000000000000 / (t1 / 10000000000000000) - t0 / 10000000000000000 * (t1 / 10000000000000000) - 1 + x - k1 / 1000000000000000000000000) *
      (100000000000000000000000000000000 * 1000000000000000000000000 * (f * t1)))
      with (f * 1000000000000000000000000 * (10000000000000000 * 10000000000000000 * t2 - t0 * (t1 * t1))
        + 10000000000000000 * 10000000000000000 * 1000000000000000000000000 * ((f * x - f) * t1)
        - 10000000000000000 * 10000000000000000 * f * (t1 * k1)) by (field; lra); lra.
Qed.
Lemma k_small : forall r, 92/100 <= r <= 34/10 -> Rabs (zev kI r / IZR kM) <= 16/10000000000.
Proof.
  intros r Y.
  assert (A : 0 <= zev (zadd [16 * 10 ^ 14]%Z kI) r) by zchk 14%nat (zadd [16 * 10 ^ 14]%Z kI).
  assert (B : 0 <= zev (zsub [16 * 10 ^ 14]%Z kI) r) by zchk 14%nat (zsub [16 * 10 ^ 14]%Z kI).
  rewrite zev_add in A. rewrite zev_sub in B. set (g := zev kI r) in *.
  change (zev [(16 * 10 ^ 14)%Z] r) with (1600000000000000 + r * 0) in A, B. change (IZR kM) with 1000000000000000000000000.
  apply Rabs_le_between. lra.
Qed.

Lemma zev_1 : forall p, zev p 1 = IZR (fold_right Z.add 0%Z p).
Proof. induction p as [|c p IH]; [reflexivity|]. cbn [zev fold_right]. rewrite IH, plus_IZR. ring. Qed.

(** The logarithm of the ratio of the two densities. *)
Definition K (r : R) : R := ln (T1 r) - T0 r * T0 r / 2 - ln root - r + exp r.
Lemma T1_pos : forall r, 92/100 <= r <= 34/10 -> 0 < T1 r.
Proof. intros r Y. unfold T1. apply Rdiv_lt_0_compat; [now apply t1_pos|]. change (IZR tM) with 10000000000000000. lra. Qed.
Lemma K_derive : forall r, 92/100 <= r <= 34/10 -> is_derive K r (dK r).
Proof.
  intros r Y. pose proof (T1_pos r Y) as P. unfold K. evar_last.
  { apply (is_derive_plus (fun r => ln (T1 r) - T0 r * T0 r / 2 - ln root - r) exp); [|apply is_derive_exp].
    apply (is_derive_minus (fun r => ln (T1 r) - T0 r * T0 r / 2 - ln root) (fun r => r)); [|apply @is_derive_id].
    apply (is_derive_minus (fun r => ln (T1 r) - T0 r * T0 r / 2) (fun _ => ln root)); [|apply @is_derive_const].
    apply (is_derive_minus (fun r => ln (T1 r)) (fun r => T0 r * T0 r / 2)).
    - apply (is_derive_comp ln T1); [now apply is_derive_ln|apply (over_tM (zder tI))].
    - apply (is_derive_ext (fun y => / 2 * (T0 y * T0 y))); [intros; unfold Rdiv; apply Rmult_comm|].
      apply is_derive_scal. apply (is_derive_mult T0 T0); [apply (over_tM tI)|apply (over_tM tI)|exact Rmult_comm]. }
  unfold dK, minus, plus, opp, scal, mult, zero, one; cbn -[zev zder tI tM T0 T1 T2]. fold (T1 r) (T2 r). field. lra.
Qed.

Lemma psum_zexp : forall n x, psum (S n) x = zev (zexp n) x / IZR (zfact n).
Proof. intros n x. rewrite zexp_psum. pose proof (zfact_posR n). field. lra. Qed.
Ltac series n :=
  rewrite (psum_zexp n);
  let p := eval vm_compute in (zexp n) in change (zexp n) with p;
  cbn [zev].
Ltac facts n := let p := eval vm_compute in (zfact n) in change (IZR (zfact n)) with (IZR p).
Lemma exp1_bounds : 2718281828459044/1000000000000000 <= exp 1 <= 2718281828459060/1000000000000000.
Proof.
  split.
  - eapply Rle_trans; [|apply (exp_low 18); lra]. series 17%nat. facts 17%nat. lra.
  - eapply Rle_trans; [apply (exp_high 18); lra|]. rewrite pow1. series 17%nat. facts 17%nat. facts 18%nat. lra.
Qed.
Definition w1 : R := 58372916841382/100000000000000.
Definition w2 : R := 58372916841387/100000000000000.
Lemma exp_w1 : 179271130325144/100000000000000 <= exp w1.
Proof. eapply Rle_trans; [|apply (exp_low 17); unfold w1; lra]. series 16%nat. facts 16%nat. unfold w1. lra. Qed.
Lemma exp_w2 : exp w2 <= 179271130325158/100000000000000.
Proof. eapply Rle_trans; [apply (exp_high 19); unfold w2; lra|]. series 18%nat. facts 18%nat. facts 19%nat. unfold w2. cbn [pow]. lra. Qed.
Lemma K_at_1 : Rabs (K 1 - zev kI 1 / IZR kM) <= 1/1000000000000.
Proof.
  assert (X0 : T0 1 = 15063549781145252/10000000000000000).
  { unfold T0. rewrite zev_1. replace (fold_right Z.add 0%Z tI) with 15063549781145252%Z by (vm_compute; reflexivity). reflexivity. }
  assert (X1 : T1 1 = 13982330958792876/10000000000000000).
  { unfold T1. rewrite zev_1. replace (fold_right Z.add 0%Z (zder tI)) with 13982330958792876%Z by (vm_compute; reflexivity). reflexivity. }
  rewrite zev_1. replace (fold_right Z.add 0%Z kI) with 371856380784057%Z by (vm_compute; reflexivity).
  pose proof root_pos as RP. pose proof root_bounds as RB. pose proof exp1_bounds as E1. pose proof exp_w1 as W1. pose proof exp_w2 as W2.
  set (w := exp 1 - 1 - T0 1 * T0 1 / 2).
  assert (WB : w1 <= w <= w2) by (unfold w, w1, w2; rewrite X0; lra).
  assert (WE : exp w1 <= exp w <= exp w2).
  { split; [destruct (proj1 WB) as [L|E]|destruct (proj2 WB) as [L|E]]; first [left; now apply exp_increasing|rewrite E; right; reflexivity]. }
  set (z := T1 1 * exp w / root - 1).
  assert (KZ : K 1 = ln (1 + z)).
  { unfold K, z. replace (1 + (T1 1 * exp w / root - 1)) with (T1 1 * (exp w * / root)) by (field; lra).
    pose proof (exp_pos w) as P1. pose proof (Rinv_0_lt_compat _ RP) as P2. assert (P3 : 0 < T1 1) by (rewrite X1; lra).
    rewrite (ln_mult (T1 1)), (ln_mult (exp w)), ln_Rinv, ln_exp; try easy; [|now apply Rmult_lt_0_compat].
    unfold w. field. }
  assert (ZR : (z + 1) * root = T1 1 * exp w) by (unfold z; field; lra). rewrite X1 in ZR.
  assert (ZB : 3713/10000000000000 <= z <= 3724/10000000000000).
  { split; apply (Rmult_le_reg_r root); try lra; replace (z * root) with ((z + 1) * root - root) by ring; rewrite ZR; lra. }
  pose proof (ln_small z ltac:(apply Rabs_le_between; lra)) as L. apply Rabs_le_between in L. rewrite KZ. change (IZR kM) with 1000000000000000000000000.
  apply Rabs_le_between. nra.
Qed.

Definition kappa : R := 164/100000000000.
Lemma K_small : forall r, 92/100 <= r <= 34/10 -> Rabs (exp (K r) - 1) <= kappa.
Proof.
  intros r Y. pose proof (drift_between K _ (fun r => zev kI r / IZR kM) _ (1/100000000000) (92/100) (34/10) K_derive (fun t _ => over_kM kI t) dK_close 1 r ltac:(lra) Y) as H.
  pose proof K_at_1 as Z. pose proof (k_small r Y) as S. cbn beta in H. set (k := zev kI r / IZR kM) in *. set (b := K 1 - zev kI 1 / IZR kM) in *.
  assert (D : Rabs (r - 1) <= 24/10) by (apply Rabs_le_between; lra).
  assert (KB : Rabs (K r) <= 1626/1000000000000).
  { apply Rabs_le_between in H. apply Rabs_le_between in Z. apply Rabs_le_between in S. apply Rabs_le_between. lra. }
  assert (KB' := KB). apply Rabs_le_between in KB'. pose proof (exp_small (K r) ltac:(lra)) as E. apply Rabs_le_between in E. unfold kappa. apply Rabs_le_between. nra.
Qed.

(** ** The upper tail of the normal law *)
Lemma phi_derive : forall t, is_derive phi t (- t * phi t).
Proof. intros t. change R in t. unfold phi. auto_derive; [easy|]. fold root. unfold Rdiv. set (e := exp _). set (i := / root). assert (H : 2 * / 2 = 1) by lra. replace (1 * t + t * 1) with (2 * t) by (unfold one; cbn; lra). nra. Qed.
Lemma tail_phi : forall x, 1 <= x -> 1 - Phi x <= phi x.
Proof.
  intros x X. destruct (Rle_dec (1 - Phi x) (phi x)) as [H|H]; [easy|exfalso].
  destruct (PF_lim (1 - Phi x - phi x) ltac:(lra)) as (A & A0 & L). set (b := Rmax x A + 1).
  pose proof (Rmax_l x A). pose proof (Rmax_r x A). specialize (L b ltac:(unfold b; lra)). apply Rabs_def2 in L.
  assert (G : (fun t => - (phi t + Phi t)) x <= (fun t => - (phi t + Phi t)) b).
  { apply (grows (fun t => - (phi t + Phi t)) (fun t => - (- t * phi t + phi t)) x b); try (unfold b; lra).
    - intros t _. apply (is_derive_opp (fun t => phi t + Phi t)). apply (is_derive_plus phi Phi); [apply phi_derive|apply Phi_derive].
    - intros t T. pose proof (phi_pos t). nra. }
  cbn beta in G. pose proof (phi_pos b). rewrite (Phi_PF b) in G. lra.
Qed.

Definition qt (r : R) : R := exp (- exp r).
Definition Ft (r : R) : R := 1 - Phi (T0 r) - qt r.
Lemma qt_derive : forall r, is_derive qt r (- exp (r - exp r)).
Proof. intros r. unfold qt. auto_derive; [easy|]. unfold Rminus. rewrite exp_plus. ring. Qed.
Lemma density : forall r, 92/100 <= r <= 34/10 -> phi (T0 r) * T1 r = exp (r - exp r) * exp (K r).
Proof.
  intros r Y. pose proof (T1_pos r Y). pose proof root_pos. rewrite <- exp_plus. unfold K, phi. fold root.
  replace (r - exp r + (ln (T1 r) - T0 r * T0 r / 2 - ln root - r + exp r)) with (- (T0 r * T0 r) / 2 + ln (T1 r) + - ln root) by field.
  rewrite !exp_plus, exp_Ropp, !exp_ln by easy. unfold Rdiv. ring.
Qed.
Lemma Ft_derive : forall r, 92/100 <= r <= 34/10 -> is_derive Ft r (- exp (r - exp r) * (exp (K r) - 1)).
Proof.
  intros r Y. unfold Ft. evar_last.
  { apply (is_derive_minus (fun r => 1 - Phi (T0 r)) qt); [|apply qt_derive].
    apply (is_derive_minus (fun _ => 1) (fun r => Phi (T0 r))); [apply @is_derive_const|].
    apply (is_derive_comp Phi T0); [apply Phi_derive|apply (over_tM tI)]. }
  unfold minus, plus, opp, scal, mult, zero; cbn -[phi T0 zev zder tI tM]. fold (T1 r).
  replace (T1 r * phi (T0 r)) with (phi (T0 r) * T1 r) by ring. rewrite (density r Y). ring.
Qed.

(** At r = 3.4 both tails are tiny. *)
Definition tiny : R := 2/1000000000000.
Lemma exp_34 : 29 <= exp (34/10).
Proof. eapply Rle_trans; [|apply (exp_low 14); lra]. series 13%nat. facts 13%nat. lra. Qed.
Lemma exp_26 : 150000000000 <= exp 26.
Proof.
  pose proof exp1_bounds. replace 26 with (13 * (1 + 1)) by ring.
  assert (P : forall n, exp (INR n * 1) = exp 1 ^ n). { induction n as [|n IH]; [cbn; rewrite Rmult_0_l; apply exp_0|]. rewrite S_INR, Rmult_plus_distr_r, exp_plus, IH, Rmult_1_l. cbn. ring. }
  replace (13 * (1 + 1)) with (INR 26 * 1) by (cbn; ring). rewrite P.
  eapply Rle_trans; [|apply (pow_incr (27/10)); lra]. cbn [pow]. lra.
Qed.
Lemma qt_end : forall r, 34/10 <= r -> 0 < qt r <= tiny.
Proof.
  intros r Y. split; [apply exp_pos|]. unfold qt, tiny. pose proof exp_34. pose proof exp_26.
  assert (exp (34/10) <= exp r) by (destruct Y as [L| <-]; [left; now apply exp_increasing|right; reflexivity]).
  assert (E : exp (- exp r) <= exp (- (26) + - (3))).
  { destruct (Req_dec (- exp r) (- (26) + - (3))) as [->|]; [right; reflexivity|]. left. apply exp_increasing. lra. }
  rewrite exp_plus, (exp_Ropp 26), (exp_Ropp 3) in E. pose proof exp1_bounds as E1.
  assert (E3 : 16 <= exp 3). { replace 3 with (1 + 1 + 1) by ring. rewrite !exp_plus. nra. }
  assert (I1 : / exp 26 <= / 150000000000) by (apply Rinv_le_contravar; lra).
  assert (I2 : / exp 3 <= / 16) by (apply Rinv_le_contravar; lra).
  pose proof (Rinv_0_lt_compat _ (exp_pos 26)). pose proof (Rinv_0_lt_compat _ (exp_pos 3)).
  assert (P : / exp 26 * / exp 3 <= / 150000000000 * / 16) by (apply Rmult_le_compat; lra). lra.
Qed.
Lemma tail_end : forall r, 34/10 <= r -> 0 < 1 - Phi (T0 r) <= tiny.
Proof.
  intros r Y. pose proof (Phi_strict (T0 r)) as B. split; [lra|].
  assert (X : T0 (34/10) <= T0 r).
  { rewrite !T0_tl. destruct Y as [L| <-]; [left; apply tl_increasing; lra|right; reflexivity]. }
  assert (E : 735/100 <= T0 (34/10)).
  { unfold T0, tI. change (IZR tM) with 10000000000000000. cbn [zev]. lra. }
  assert (M : Phi (735/100) <= Phi (T0 r)). { destruct (Req_dec (735/100) (T0 r)) as [<-|]; [right; reflexivity|left; apply Phi_incr; lra]. }
  pose proof (tail_phi (735/100) ltac:(lra)) as P.
  enough (phi (735/100) <= tiny) by lra. unfold phi, tiny. fold root. pose proof root_bounds as RB. pose proof exp_26 as E26. pose proof exp1_bounds as E1.
  assert (EX : exp (- (735/100 * (735/100)) / 2) <= exp (- (26) + - (1))) by (left; apply exp_increasing; lra).
  rewrite exp_plus, !exp_Ropp in EX.
  assert (I1 : / exp 26 <= / 150000000000) by (apply Rinv_le_contravar; lra).
  assert (I2 : / exp 1 <= / 2) by (apply Rinv_le_contravar; lra).
  assert (I3 : / root <= / 2) by (apply Rinv_le_contravar; lra).
  pose proof (Rinv_0_lt_compat _ (exp_pos 26)). pose proof (Rinv_0_lt_compat _ (exp_pos 1)). pose proof (Rinv_0_lt_compat _ root_pos).
  assert (Q1 : / exp 26 * / exp 1 <= / 150000000000 * / 2) by (apply Rmult_le_compat; lra).
  pose proof (exp_pos (- (735/100 * (735/100)) / 2)).
  unfold Rdiv at 1. apply (Rle_trans _ (/ 150000000000 * / 2 * / 2)); [apply Rmult_le_compat; lra|lra].
Qed.

Lemma Ft_small : forall r, 92/100 <= r <= 34/10 -> Rabs (Ft r) <= kappa * qt r + tiny.
Proof.
  intros r Y. pose proof (qt_end (34/10) ltac:(lra)) as Q. pose proof (tail_end (34/10) ltac:(lra)) as P.
  assert (K0 : 0 < kappa) by (unfold kappa; lra).
  assert (DQ : forall c t, is_derive (fun t => c * qt t) t (c * - exp (t - exp t))) by (intros; apply is_derive_scal, qt_derive).
  assert (U : (fun t => Ft t - kappa * qt t) r <= (fun t => Ft t - kappa * qt t) (34/10)).
  { apply (grows (fun t => Ft t - kappa * qt t) (fun t => - exp (t - exp t) * (exp (K t) - 1) - kappa * - exp (t - exp t)) r (34/10)); try lra.
    - intros t T. apply (is_derive_minus Ft (fun t => kappa * qt t)); [apply Ft_derive; lra|apply DQ].
    - intros t T. pose proof (exp_pos (t - exp t)). pose proof (K_small t ltac:(lra)) as S. apply Rabs_le_between in S. nra. }
  assert (L : (fun t => - Ft t - kappa * qt t) r <= (fun t => - Ft t - kappa * qt t) (34/10)).
  { apply (grows (fun t => - Ft t - kappa * qt t) (fun t => - (- exp (t - exp t) * (exp (K t) - 1)) - kappa * - exp (t - exp t)) r (34/10)); try lra.
    - intros t T. apply (is_derive_minus (fun t => - Ft t) (fun t => kappa * qt t)); [apply (is_derive_opp Ft), Ft_derive; lra|apply DQ].
    - intros t T. pose proof (exp_pos (t - exp t)). pose proof (K_small t ltac:(lra)) as S. apply Rabs_le_between in S. nra. }
  cbn beta in U, L. assert (E : Ft (34/10) = 1 - Phi (T0 (34/10)) - qt (34/10)) by reflexivity.
  pose proof (Rmult_le_pos _ _ (Rlt_le _ _ K0) (Rlt_le _ _ (proj1 Q))).
  apply Rabs_le_between. lra.
Qed.

Lemma exp_092 : exp (92/100) <= 251/100.
Proof. eapply Rle_trans; [apply (exp_high 10); lra|]. series 9%nat. facts 9%nat. facts 10%nat. cbn [pow]. lra. Qed.
Lemma exp_251 : exp (251/100) <= 125/10.
Proof. eapply Rle_trans; [apply (exp_high 18); lra|]. series 17%nat. facts 17%nat. facts 18%nat. cbn [pow]. lra. Qed.

(** The lower tail: the distribution function at the value returned. *)
Theorem lower_tail : forall q, 0 < q <= 8/100 -> Rabs (Phi (- tl (ln (- ln q))) - q) <= kappa * q + tiny.
Proof.
  intros q Q. pose proof exp_092 as E1. pose proof exp_251 as E2.
  assert (LQ : 251/100 <= - ln q).
  { enough (ln q <= ln (exp (- (251/100)))) by (rewrite ln_exp in H; lra). apply ln_mono; [lra|].
    rewrite exp_Ropp. apply (Rle_trans _ (/ (125/10))); [lra|]. apply Rinv_le_contravar; [apply exp_pos|lra]. }
  set (r := ln (- ln q)).
  assert (ER : exp r = - ln q) by (unfold r; apply exp_ln; lra).
  assert (R0 : 92/100 <= r). { rewrite <- (ln_exp (92/100)). apply ln_mono; [apply exp_pos|lra]. }
  assert (QT : qt r = q) by (unfold qt; rewrite ER, Ropp_involutive; apply exp_ln; lra).
  rewrite Phi_opp, <- T0_tl. assert (0 < kappa * q) by (apply Rmult_lt_0_compat; unfold kappa; lra).
  destruct (Rle_dec r (34/10)) as [L|L].
  - pose proof (Ft_small r (conj R0 L)) as F. unfold Ft in F. rewrite QT in F. exact F.
  - pose proof (qt_end r ltac:(lra)) as B. pose proof (tail_end r ltac:(lra)) as T. rewrite QT in B. apply Rabs_le_between. lra.
Qed.
