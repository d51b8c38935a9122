(** How close the quantile function of the code is to the inverse of the normal distribution
    function, in exact arithmetic. *)
From Coq Require Import List ZArith Reals Lra Lia Bool Machin Ratan.
From Coquelicot Require Import Coquelicot.
From Verif Require Import M_Num M_Outcome M_Random S_Prob S_Normal L_Poly L_ZPoly L_Gauss L_Normal L_InvCdf.
Import ListNotations.
Local Open Scope R_scope.

(** ** pi *)
Lemma pi_bounds : 31415926535897/10000000000000 <= PI <= 31415926535898/10000000000000.
Proof.
  pose proof (PI_2_3_7_ineq 7) as (L & U). unfold tg_alt, PI_2_3_7_tg, Ratan_seq in L, U. cbn -[Rdiv] in L, U. lra.
Qed.
Definition root : R := sqrt (2 * PI).
Lemma root_pos : 0 < root.
Proof. apply sqrt_lt_R0. pose proof pi_bounds. lra. Qed.
Lemma root_sq : root * root = 2 * PI.
Proof. apply sqrt_sqrt. pose proof pi_bounds. lra. Qed.
Lemma root_bounds : 250662827463096/100000000000000 <= root <= 250662827463105/100000000000000.
Proof. pose proof root_pos. pose proof root_sq. pose proof pi_bounds. split; nra. Qed.

(** ** Small exponentials *)
Lemma exp_1p : forall z, 1 + z <= exp z.
Proof. intros z. pose proof (exp_ineq1_le z). lra. Qed.
Lemma exp_small : forall z, Rabs z <= 1 / 2 -> Rabs (exp z - 1 - z) <= 2 * (z * z).
Proof.
  intros z Z. apply Rabs_le_between in Z. pose proof (exp_1p z). pose proof (exp_1p (- z)) as H1. rewrite exp_Ropp in H1.
  pose proof (exp_pos z). apply Rabs_le_between. split; [nra|].
  assert (exp z * (1 - z) <= 1). { replace 1 with (exp z * / exp z) at 2 by (field; lra). apply Rmult_le_compat_l; lra. } nra.
Qed.
Lemma ln_mono : forall a b, 0 < a -> a <= b -> ln a <= ln b.
Proof. intros a b A [L| ->]; [left; now apply ln_increasing|right; reflexivity]. Qed.
Lemma ln_small : forall z, Rabs z <= 1 / 2 -> Rabs (ln (1 + z) - z) <= 2 * (z * z).
Proof.
  intros z Z. apply Rabs_le_between in Z. assert (P : 0 < 1 + z) by lra.
  assert (U : ln (1 + z) <= z) by (rewrite <- (ln_exp z) at 2; apply ln_mono; [lra|apply exp_1p]).
  assert (V : - ln (1 + z) <= - (z / (1 + z))).
  { rewrite <- ln_Rinv by lra. replace (/ (1 + z)) with (1 + - (z / (1 + z))) by (field; lra).
    assert (0 < 1 + - (z / (1 + z))) by (replace (1 + - (z / (1 + z))) with (/ (1 + z)) by (field; lra); now apply Rinv_0_lt_compat).
    eapply Rle_trans; [apply ln_mono; [lra|apply exp_1p]|]. rewrite ln_exp. lra. }
  assert (W : z / (1 + z) >= z - 2 * (z * z)).
  { apply Rle_ge. apply (Rmult_le_reg_r (1 + z)); [lra|]. replace (z / (1 + z) * (1 + z)) with z by (field; lra). nra. }
  apply Rabs_le_between. nra.
Qed.

(** ** The centre *)
Definition nI : list Z := [0; 250662823884; 0; -1861500062529; 0; 4139119773534; 0; -2544106049637]%Z.
Definition dI : list Z := [100000000000; 0; -847351093090; 0; 2308336743743; 0; -2106224101826; 0; 313082909833]%Z.
Definition n1I : list Z := zsub (zmul (zder nI) dI) (zmul nI (zder dI)).
Definition n2I : list Z := zsub (zmul (zder n1I) dI) (zscal 2 (zmul n1I (zder dI))).
(** x'' / x' - x x', as a fraction *)
Definition numI : list Z := zsub (zmul n2I (zmul dI dI)) (zmul nI (zmul n1I n1I)).
Definition denI : list Z := zmul (zmul dI (zmul dI dI)) n1I.

(** Approximates G y = Phi (cen y) - 1/2 - y, times 10^26. *)
Definition gI : list Z :=
  [0; -1427854346022096927; 0; 250444331127141503483; 0; -12295220590396728414461; 0;
   244605774555858950081427; 0; -2029915609162322097466387; 0; 2155058934652969380633417; 0;
   215212744451618096651096776; 0; -12393583474815467726021371250; 0; 576663060651042894250012112253;
   0; -20348979467092279591488880329342; 0; 555982916067755040409853968445816; 0;
   -11957504675912647016537139005287696; 0; 204684515835615313467084470415185365; 0;
   -2808682291540152426126139091490080428; 0; 31006145109186233280106817721408356693; 0;
   -275394550091572137001518904757023403746; 0; 1960784712037260103405728817134800009809; 0;
   -11100678988999239222032626096416483201462; 0; 49281747402496351750263951361397774361423; 0;
   -167808129401447072430457269660071645154247; 0; 423008818786235199260894832471817334423400; 0;
   -743712576129780607473936867768141405073113; 0; 814335324766700600863773960904477301572890; 0;
   -418283169368413644775030581740133039572114]%Z.
Definition gM : Z := (10 ^ 26)%Z.

Definition x0 (y : R) : R := zev nI y / zev dI y.
Definition x1 (y : R) : R := zev n1I y / (zev dI y * zev dI y).
Definition x2 (y : R) : R := zev n2I y / (zev dI y * zev dI y * zev dI y).

Lemma x0_cen : forall y, x0 y = cen y.
Proof.
  intros y. unfold x0, cen, nI, dI. cbn [zev].
  replace (IZR 0 + y * (IZR 250662823884 + y * (IZR 0 + y * (IZR (-1861500062529) + y * (IZR 0 + y * (IZR 4139119773534 + y * (IZR 0 + y * (IZR (-2544106049637) + y * 0))))))))
    with (100000000000 * (y * fA (y * y))) by (unfold fA; field).
  match goal with |- _ / ?a = _ => replace a with (100000000000 * fB (y * y)) by (unfold fB; field) end.
  destruct (Req_dec (fB (y * y)) 0) as [->|N]; [rewrite Rmult_0_r; unfold Rdiv; rewrite Rinv_0; ring|]. field. exact N.
Qed.

Lemma at_range : forall y, 0 <= y <= 42/100 -> IZR 0 / IZR 100 <= y <= (IZR 0 + IZR 42) / IZR 100.
Proof. intros y Y. lra. Qed.
Ltac zchk f p := let H := fresh in assert (H : zcheck f p 0 42 100 = true) by (vm_compute; reflexivity); exact (zcheck_ok f p 0 42 100 H _ (at_range _ ltac:(eassumption))).

Lemma dI_pos : forall y, 0 <= y <= 42/100 -> 0 < zev dI y.
Proof.
  intros y Y. assert (0 <= zev (zsub dI [1%Z]) y) by zchk 12%nat (zsub dI [1%Z]).
  rewrite zev_sub in H. cbn [zev] in H. lra.
Qed.
Lemma n1I_pos : forall y, 0 <= y <= 42/100 -> 0 < zev n1I y.
Proof.
  intros y Y. assert (0 <= zev (zsub n1I [1%Z]) y) by zchk 12%nat (zsub n1I [1%Z]).
  rewrite zev_sub in H. cbn [zev] in H. lra.
Qed.
Lemma slope_close : forall y, 0 <= y <= 42/100 ->
  Rabs (zev numI y / zev denI y - zev (zder (zder gI)) y / IZR gM) <= 5/100000000000.
Proof.
  intros y Y. pose proof (dI_pos y Y) as D0. pose proof (n1I_pos y Y) as N0.
  assert (DE : 0 < zev denI y) by (unfold denI; rewrite !zev_mul; repeat apply Rmult_lt_0_compat; easy).
  assert (A : 0 <= zev (zsub (zmul (zadd [5 * 10 ^ 15]%Z (zder (zder gI))) denI) (zscal gM numI)) y)
    by zchk 14%nat (zsub (zmul (zadd [5 * 10 ^ 15]%Z (zder (zder gI))) denI) (zscal gM numI)).
  assert (B : 0 <= zev (zadd (zmul (zsub [5 * 10 ^ 15]%Z (zder (zder gI))) denI) (zscal gM numI)) y)
    by zchk 14%nat (zadd (zmul (zsub [5 * 10 ^ 15]%Z (zder (zder gI))) denI) (zscal gM numI)).
  rewrite zev_sub, zev_scal, zev_mul, zev_add in A. rewrite zev_add, zev_scal, zev_mul, zev_sub in B.
  set (g2 := zev (zder (zder gI)) y) in *. set (de := zev denI y) in *. set (nu := zev numI y) in *.
  change (zev [(5 * 10 ^ 15)%Z] y) with (5000000000000000 + y * 0) in A, B. rewrite Rmult_0_r, Rplus_0_r in A, B.
  change (IZR gM) with 100000000000000000000000000 in *.
  apply Rabs_le_between. split; apply (Rmult_le_reg_r (100000000000000000000000000 * de)); try nra;
    replace ((nu / de - g2 / 100000000000000000000000000) * (100000000000000000000000000 * de)) with (100000000000000000000000000 * nu - g2 * de) by (field; lra); lra.
Qed.
Lemma g1_small : forall y, 0 <= y <= 42/100 -> Rabs (zev (zder gI) y / IZR gM) <= 6/10000000.
Proof.
  intros y Y.
  assert (A : 0 <= zev (zadd [6 * 10 ^ 19]%Z (zder gI)) y) by zchk 14%nat (zadd [6 * 10 ^ 19]%Z (zder gI)).
  assert (B : 0 <= zev (zsub [6 * 10 ^ 19]%Z (zder gI)) y) by zchk 14%nat (zsub [6 * 10 ^ 19]%Z (zder gI)).
  rewrite zev_add in A. rewrite zev_sub in B. set (g := zev (zder gI) y) in *.
  change (zev [(6 * 10 ^ 19)%Z] y) with (60000000000000000000 + y * 0) in A, B. change (IZR gM) with 100000000000000000000000000.
  apply Rabs_le_between. lra.
Qed.
Lemma g_small : forall y, 0 <= y <= 42/100 -> Rabs (zev gI y / IZR gM) <= 45/100000000000.
Proof.
  intros y Y.
  assert (A : 0 <= zev (zadd [45 * 10 ^ 15]%Z gI) y) by zchk 14%nat (zadd [45 * 10 ^ 15]%Z gI).
  assert (B : 0 <= zev (zsub [45 * 10 ^ 15]%Z gI) y) by zchk 14%nat (zsub [45 * 10 ^ 15]%Z gI).
  rewrite zev_add in A. rewrite zev_sub in B. set (g := zev gI y) in *.
  change (zev [(45 * 10 ^ 15)%Z] y) with (45000000000000000 + y * 0) in A, B. change (IZR gM) with 100000000000000000000000000.
  apply Rabs_le_between. lra.
Qed.

Lemma x0_derive : forall y, zev dI y <> 0 -> is_derive x0 y (x1 y).
Proof.
  intros y N. unfold x0, x1. evar_last. apply (is_derive_div (zev nI) (zev dI)); [apply zev_derive|apply zev_derive|exact N].
  unfold n1I. rewrite zev_sub, !zev_mul. unfold minus, plus, opp, scal, mult; cbn -[zev nI dI zder]. field. exact N.
Qed.
Lemma x1_derive : forall y, zev dI y <> 0 -> is_derive x1 y (x2 y).
Proof.
  intros y N. unfold x1, x2. evar_last.
  apply (is_derive_div (zev n1I) (fun y => zev dI y * zev dI y)); [apply zev_derive|apply (is_derive_mult (zev dI) (zev dI)); [apply zev_derive|apply zev_derive|exact Rmult_comm]|now apply Rmult_integral_contrapositive].
  unfold n2I. rewrite zev_sub, zev_scal, !zev_mul. unfold minus, plus, opp, scal, mult; cbn -[zev nI dI n1I zder]. field. exact N.
Qed.

(** Logarithm of the derivative of Phi (x0 y). *)
Definition lnE (y : R) : R := ln (x1 y) - x0 y * x0 y / 2 - ln root.
Lemma x1_pos : forall y, 0 <= y <= 42/100 -> 0 < x1 y.
Proof. intros y Y. unfold x1. pose proof (dI_pos y Y). pose proof (n1I_pos y Y). apply Rdiv_lt_0_compat; [easy|nra]. Qed.
Lemma lnE_derive : forall y, 0 <= y <= 42/100 -> is_derive lnE y (zev numI y / zev denI y).
Proof.
  intros y Y. pose proof (dI_pos y Y) as D0. pose proof (n1I_pos y Y) as N0. pose proof (x1_pos y Y) as X1.
  assert (DN : zev dI y <> 0) by lra. unfold lnE.
  evar_last.
  { apply (is_derive_minus (fun y => ln (x1 y) - x0 y * x0 y / 2) (fun _ => ln root)); [|apply @is_derive_const].
    apply (is_derive_minus (fun y => ln (x1 y)) (fun y => x0 y * x0 y / 2)).
    - apply (is_derive_comp ln x1); [now apply is_derive_ln|now apply x1_derive].
    - apply (is_derive_ext (fun y => / 2 * (x0 y * x0 y))); [intros; unfold Rdiv; apply Rmult_comm|].
      apply is_derive_scal. apply (is_derive_mult x0 x0); [now apply x0_derive|now apply x0_derive|exact Rmult_comm]. }
  unfold minus, plus, opp, scal, mult, zero; cbn -[zev nI dI n1I n2I numI denI zder x0 x1 x2].
  unfold numI, denI. rewrite zev_sub, !zev_mul. unfold x0, x1, x2. field. lra.
Qed.
Lemma E_lnE : forall y, 0 <= y <= 42/100 -> phi (x0 y) * x1 y = exp (lnE y).
Proof.
  intros y Y. pose proof (x1_pos y Y) as X1. unfold lnE, phi. fold root. pose proof root_pos.
  replace (ln (x1 y) - x0 y * x0 y / 2 - ln root) with (- (x0 y * x0 y) / 2 + ln (x1 y) + - ln root) by field.
  rewrite !exp_plus, exp_Ropp, !exp_ln by easy. unfold Rdiv. ring.
Qed.
Lemma at_0 : Rabs (lnE 0 - zev (zder gI) 0 / IZR gM) <= 1/1000000000000.
Proof.
  assert (Z : forall p, zev p 0 = match p with [] => 0 | c :: _ => IZR c end) by (intros []; [easy|cbn; ring]).
  assert (X1 : x1 0 = 250662823884/100000000000).
  { unfold x1. rewrite !Z.
    replace n1I with (hd 0%Z n1I :: List.tl n1I) by (vm_compute; reflexivity).
    replace (hd 0%Z n1I) with 25066282388400000000000%Z by (vm_compute; reflexivity). unfold dI. field. }
  assert (X0 : x0 0 = 0) by (unfold x0; rewrite !Z; unfold nI, dI; field).
  rewrite Z. replace (zder gI) with (hd 0%Z (zder gI) :: List.tl (zder gI)) by (vm_compute; reflexivity).
  replace (hd 0%Z (zder gI)) with (-1427854346022096927)%Z by (vm_compute; reflexivity).
  unfold lnE. rewrite X0, X1. pose proof root_pos as RP. pose proof root_bounds as RB.
  replace (ln (250662823884 / 100000000000) - 0 * 0 / 2 - ln root) with (ln (1 + (250662823884 / 100000000000 / root - 1))).
  2:{ replace (1 + (250662823884 / 100000000000 / root - 1)) with (250662823884 / 100000000000 * / root) by (field; lra).
      rewrite ln_mult, ln_Rinv by (first [lra | now apply Rinv_0_lt_compat]). field. }
  set (z := 250662823884 / 100000000000 / root - 1).
  assert (ZR : (z + 1) * root = 250662823884 / 100000000000) by (unfold z; field; lra).
  assert (ZB : -14278590/1000000000000000 <= z <= -14278500/1000000000000000).
  { split; apply (Rmult_le_reg_r root); try lra; replace (z * root) with ((z + 1) * root - root) by ring; rewrite ZR; lra. }
  pose proof (ln_small z ltac:(apply Rabs_le_between; lra)) as L. apply Rabs_le_between in L. change (IZR gM) with 100000000000000000000000000.
  apply Rabs_le_between. nra.
Qed.

Definition G (y : R) : R := Phi (x0 y) - 1 / 2 - y.
Lemma G_derive : forall y, 0 <= y <= 42/100 -> is_derive G y (exp (lnE y) - 1).
Proof.
  intros y Y. pose proof (dI_pos y Y) as D0. unfold G. evar_last.
  { apply (is_derive_minus (fun y => Phi (x0 y) - 1 / 2) (fun y => y)); [|apply @is_derive_id].
    apply (is_derive_minus (fun y => Phi (x0 y)) (fun _ => 1 / 2)); [|apply @is_derive_const].
    apply (is_derive_comp Phi x0); [apply Phi_derive|apply x0_derive; lra]. }
  unfold minus, plus, opp, scal, mult, zero, one; cbn -[phi x0 x1 lnE]. rewrite <- E_lnE by easy. ring.
Qed.
Lemma over_M : forall p y, is_derive (fun y => zev p y / IZR gM) y (zev (zder p) y / IZR gM).
Proof.
  intros p y. apply (is_derive_ext (fun y => / IZR gM * zev p y)); [intros; unfold Rdiv; apply Rmult_comm|].
  unfold Rdiv. rewrite Rmult_comm. apply is_derive_scal. apply zev_derive.
Qed.
Lemma lnE_close : forall y, 0 <= y <= 42/100 -> Rabs (lnE y - zev (zder gI) y / IZR gM) <= 23/1000000000000.
Proof.
  intros y Y. pose proof (drift_between lnE _ (fun y => zev (zder gI) y / IZR gM) _ (5/100000000000) 0 (42/100) lnE_derive
    (fun t _ => over_M (zder gI) t) slope_close 0 y ltac:(lra) Y) as H.
  pose proof at_0 as Z. cbn beta in H. rewrite Rminus_0_r, (Rabs_pos_eq y) in H by lra.
  set (a := lnE y - zev (zder gI) y / IZR gM) in *. set (b := lnE 0 - zev (zder gI) 0 / IZR gM) in *.
  apply Rabs_le_between in H. apply Rabs_le_between in Z. apply Rabs_le_between. lra.
Qed.
Lemma x0_0 : x0 0 = 0.
Proof. unfold x0, nI. cbn [zev]. unfold Rdiv. ring. Qed.
Lemma Phi_0 : Phi 0 = 1 / 2.
Proof. rewrite Phi_PF, PF_0. ring. Qed.
Theorem centre : forall y, 0 <= y <= 42/100 -> Rabs (Phi (cen y) - 1 / 2 - y) <= 47/100000000000.
Proof.
  intros y Y. rewrite <- x0_cen. fold (G y).
  assert (C : forall t, 0 <= t <= 42/100 -> Rabs ((exp (lnE t) - 1) - zev (zder gI) t / IZR gM) <= 24/1000000000000).
  { intros t T. pose proof (lnE_close t T) as A. pose proof (g1_small t T) as B. set (g := zev (zder gI) t / IZR gM) in *. set (l := lnE t) in *.
    apply Rabs_le_between in A. apply Rabs_le_between in B.
    pose proof (exp_small l ltac:(apply Rabs_le_between; lra)) as E. apply Rabs_le_between in E. apply Rabs_le_between. nra. }
  pose proof (drift_between G _ (fun y => zev gI y / IZR gM) _ (24/1000000000000) 0 (42/100) G_derive (fun t _ => over_M gI t) C 0 y ltac:(lra) Y) as H.
  pose proof (g_small y Y) as S. cbn beta in H. rewrite Rminus_0_r, (Rabs_pos_eq y) in H by lra.
  assert (G0 : G 0 = 0) by (unfold G; rewrite x0_0, Phi_0; ring).
  assert (Q0 : zev gI 0 / IZR gM = 0) by (unfold gI; cbn [zev]; unfold Rdiv; ring).
  rewrite G0, Q0 in H. set (g := zev gI y / IZR gM) in *. apply Rabs_le_between in H. apply Rabs_le_between in S. apply Rabs_le_between. lra.
Qed.
