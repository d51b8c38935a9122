(** Property C129: rounding in the explicit finite-difference scheme. *)
From Coq Require Import String List ZArith Bool Lia Reals Lra Psatz.
From Flocq Require Import Core BinarySingleNaN.
From Verif Require Import M_Num M_Outcome M_Numeric M_Stock M_Market M_Payoff M_Option M_Fdm
  S_Market S_Numeric S_Double S_Order S_Fdm S_FdmDouble S_ExplicitDouble L_B64 L_Payoff L_Order L_McDouble L_McRound L_Near L_Fdm L_FdmDouble L_ExplicitDouble
  L_Model P_FdmMarch P_FdmScheme P_FdmCompare P_FdmDouble.
Import ListNotations.
Local Open Scope R_scope.

(** ** The reference *)
Section Grid.
Variables sigma r q dt h K : R.
Variable last : nat.
Hypothesis D0 : 0 <= dt. Hypothesis K0 : 0 <= K. Hypothesis H0 : 0 <= h.
Hypothesis ST : steady sigma r q dt last.
Lemma halves : forall j, (1 <= j <= last - 1)%nat ->
  let a := dt * (sigma * sigma * INR j * INR j) / 2 in let b := dt * ((r - q) * INR j) / 2 in
  0 <= a /\ Rabs b <= a /\ 0 <= dt * r /\ 2 * a + dt * r <= 1.
Proof.
  intros j J a b. destruct ST as (R0 & RQ & TS).
  assert (I1 : 1 <= INR j) by (apply (le_INR 1); lia). assert (I2 : INR j <= INR (last - 1)) by (apply le_INR; lia).
  assert (SS : 0 <= sigma * sigma) by nra. assert (JJ : INR j <= INR j * INR j) by nra.
  assert (JL : INR j * INR j <= INR (last - 1) * INR (last - 1)) by nra.
  assert (P1 : sigma * sigma * (INR j * INR j) <= sigma * sigma * (INR (last - 1) * INR (last - 1))) by (apply Rmult_le_compat_l; lra).
  assert (P2 : Rabs (r - q) * INR j <= sigma * sigma * (INR j * INR j)).
  { apply Rmult_le_compat; try lra. apply Rabs_pos. }
  unfold a, b. split; [apply Rmult_le_pos; [|lra]; apply Rmult_le_pos; [lra|]; nra|]. split.
  - unfold Rdiv. rewrite !Rabs_mult, (Rabs_pos_eq dt), (Rabs_pos_eq (INR j)), (Rabs_pos_eq (/ 2)) by lra.
    apply Rmult_le_compat_r; [lra|]. apply Rmult_le_compat_l; lra.
  - split; [nra|]. assert (dt * (sigma * sigma * (INR j * INR j)) <= dt * (sigma * sigma * (INR (last - 1) * INR (last - 1)))) by (apply Rmult_le_compat_l; lra). lra.
Qed.
Lemma put_grid_bounds : forall i j, (j <= last)%nat -> 0 <= put_grid sigma r q dt h K last i j <= K.
Proof.
  induction i as [|i IH]; intros j J; cbn [put_grid].
  - pose proof (pos_INR j). assert (0 <= INR j * h) by (apply Rmult_le_pos; lra). split; [apply Rmax_r|]. apply Rmax_lub; lra.
  - destruct (Nat.eqb_spec j 0); [lra|]. destruct (Nat.eqb_spec j last); [lra|].
    destruct (halves j ltac:(lia)) as (A & B & Q & L). apply Rabs_le_inv in B.
    pose proof (IH (j - 1)%nat ltac:(lia)) as V1. pose proof (IH j ltac:(lia)) as V2. pose proof (IH (j + 1)%nat ltac:(lia)) as V3.
    set (a := dt * (sigma * sigma * INR j * INR j) / 2) in *. set (b := dt * ((r - q) * INR j) / 2) in *.
    assert (W1 : weight_down sigma r q dt j = a - b) by (unfold weight_down, a, b; lra).
    assert (W2 : weight_stay sigma r dt j = 1 - 2 * a - dt * r) by (unfold weight_stay, a; lra).
    assert (W3 : weight_up sigma r q dt j = a + b) by (unfold weight_up, a, b; lra).
    rewrite W1, W2, W3. clearbody a b.
    assert (X1 : 0 <= (a - b) * put_grid sigma r q dt h K last i (j - 1) <= (a - b) * K) by (split; [apply Rmult_le_pos|apply Rmult_le_compat_l]; lra).
    assert (X2 : 0 <= (1 - 2 * a - dt * r) * put_grid sigma r q dt h K last i j <= (1 - 2 * a - dt * r) * K) by (split; [apply Rmult_le_pos|apply Rmult_le_compat_l]; lra).
    assert (X3 : 0 <= (a + b) * put_grid sigma r q dt h K last i (j + 1) <= (a + b) * K) by (split; [apply Rmult_le_pos|apply Rmult_le_compat_l]; lra).
    assert (0 <= dt * r * K) by (apply Rmult_le_pos; lra). lra.
Qed.
End Grid.

(** ** The numbers that the code computes *)
Section Numbers.
Variable fexp flog : b64 -> b64.
Local Notation num := (B64 fexp flog).
Local Notation half := (@nhalf b64 num).
Variables xDom tDom sigma r c : b64.
Variables J N : Z.
Hypothesis HJ : (4 <= J)%Z. Hypothesis MJ : (J - 4 <= INT_MAX)%Z.
Hypothesis HN : (2 <= N <= 2 ^ 25)%Z.
Hypothesis FX : finite xDom. Hypothesis MXD : moderate (val xDom).
Hypothesis FT : finite tDom. Hypothesis MTD : moderate (val tDom).
Hypothesis FS : finite sigma. Hypothesis MS : moderate (val sigma).
Hypothesis FR : finite r. Hypothesis MR : moderate_or_zero (val r).
Hypothesis FC : finite c. Hypothesis MC : moderate_or_zero (val r - val c).
Let n := Z.to_nat J.
Let dtb := b64_div tDom (b64_ofZ (ulsub N 1)).
Let dxb := b64_div xDom (b64_ofZ (ulsub J 1)).
Let dx2b := b64_mul dxb dxb.
Let xb (j : nat) := b64_mul (b64_ofZ (Z.of_nat j)) dxb.
Let tau := val tDom / (IZR N - 1).
Let h := val xDom / (IZR J - 1).

Lemma moderate_tame : forall x, moderate x -> tame 50 x.
Proof. intros x [A B]. right. pose proof (bpow_gt_0 radix2 (-50)). rewrite Rabs_pos_eq by lra. split; assumption. Qed.
Lemma moderate0_tame : forall x, moderate_or_zero x -> tame 50 x.
Proof. intros x [E|[A B]]; [now left|]. now right. Qed.
Lemma count_tame : forall z, (1 <= z <= 2 ^ 32)%Z -> tame 32 (IZR z).
Proof.
  clear HJ MJ HN. intros z Z. right. assert (1 <= IZR z <= 4294967296) by (split; apply IZR_le; lia). rewrite Rabs_pos_eq by lra.
  pose proof (bpow_le radix2 (- (32)) 0 ltac:(lia)) as L. change (bpow radix2 0) with 1 in L. change (bpow radix2 32) with 4294967296. lra.
Qed.
Lemma JN_small : (J <= 2 ^ 31 + 3)%Z. Proof. clear HJ HN. unfold INT_MAX in MJ. lia. Qed.
Lemma count_div : forall x k, finite x -> moderate (val x) -> (2 <= k <= 2 ^ 32)%Z -> prel (101/100) (b64_div x (b64_ofZ (ulsub k 1))) (val x / (IZR k - 1)) /\ tame 82 (val x / (IZR k - 1)).
Proof.
  clear HJ MJ HN. intros x k F M K. rewrite ulsub_small by (unfold ULONG_MOD; lia). destruct (ofZ_fmt (k - 1)) as [F1 V1]; [lia|]. rewrite minus_IZR in V1.
  assert (P : 1 <= IZR k - 1) by (rewrite <- minus_IZR; apply IZR_le; lia).
  assert (T : tame 82 (val x / (IZR k - 1))).
  { apply (tame_div 50 32); [now apply moderate_tame|]. rewrite <- minus_IZR. apply count_tame. lia. }
  split; [|exact T]. rewrite <- V1. eapply prel_div_exact; [apply prel_self, F|exact F1|rewrite V1; lra|rewrite V1; exact T|lia|lra|lra].
Qed.
Lemma step_prel : prel (101/100) dtb tau /\ tame 82 tau.
Proof. clear HJ MJ. apply count_div; auto. lia. Qed.
Lemma dx_prel : prel (101/100) dxb h /\ tame 82 h.
Proof. clear HN. apply count_div; auto. pose proof JN_small. lia. Qed.
Lemma tame_h2 : tame 164 (h * h).
Proof. apply (tame_mul 82 82); apply dx_prel. Qed.
Lemma dx2_prel : prel (304/100) dx2b (h * h).
Proof. pose proof dx_prel as [D T]. eapply prel_mul; [exact D|exact D|exact tame_h2| | | |]; first [lia|lra]. Qed.
Lemma node_prel : forall j, (1 <= j <= n)%nat -> prel (203/100) (xb j) (INR j * h) /\ tame 114 (INR j * h).
Proof.
  clear HN. intros j I. pose proof dx_prel as [D T]. pose proof JN_small as JS. destruct (ofZ_fmt (Z.of_nat j)) as [F V]; [unfold n in I; lia|]. rewrite INR_IZR_INZ, <- V.
  assert (TT : tame 114 (val (b64_ofZ (Z.of_nat j)) * h)). { apply (tame_mul 32 82); [|exact T]. rewrite V. apply count_tame. unfold n in I. lia. }
  split; [|exact TT]. eapply prel_mul; [apply prel_self, F|exact D|exact TT| | | |]; first [lia|lra].
Qed.
Lemma half_prel : prel 0 half (/ 2) /\ tame 1 (/ 2).
Proof.
  destruct (half_ok fexp flog) as [F V]. split; [split; [exact F|rewrite V, Rminus_eq_0, Rabs_R0; lra]|].
  right. rewrite Rabs_pos_eq by lra. change (bpow radix2 (- (1))) with (/ 2). change (bpow radix2 1) with 2. lra.
Qed.
Local Ltac sides := first [lia|lra].
Lemma A_prel : forall j, (1 <= j <= n)%nat ->
  prel 11 (b64_mul dtb (b64_mul (b64_mul (b64_mul (b64_mul half sigma) sigma) (xb j)) (xb j))) (tau * (val sigma * val sigma * INR j * INR j) / 2 * (h * h)).
Proof.
  intros j I. destruct half_prel as [PH TH]. destruct (node_prel j I) as [PX TX]. destruct step_prel as [PT TT].
  pose proof (moderate_tame _ MS) as TS. pose proof (prel_self _ FS) as PS.
  assert (T1 := tame_mul _ _ _ _ TH TS). assert (P1 : prel (102/100) (b64_mul half sigma) (/ 2 * val sigma)) by (eapply prel_mul; [exact PH|exact PS|exact T1| | | |]; sides).
  assert (T2 := tame_mul _ _ _ _ T1 TS). assert (P2 : prel (204/100) (b64_mul (b64_mul half sigma) sigma) (/ 2 * val sigma * val sigma)) by (eapply prel_mul; [exact P1|exact PS|exact T2| | | |]; sides).
  assert (T3 := tame_mul _ _ _ _ T2 TX). assert (P3 : prel (51/10) _ _) by (eapply prel_mul; [exact P2|exact PX|exact T3| | | |]; sides).
  assert (T4 := tame_mul _ _ _ _ T3 TX). assert (P4 : prel (82/10) _ _) by (eapply prel_mul; [exact P3|exact PX|exact T4| | | |]; sides).
  assert (T5 := tame_mul _ _ _ _ TT T4). assert (P5 : prel 11 _ _) by (eapply prel_mul; [exact PT|exact P4|exact T5| | | |]; sides).
  match type of P5 with prel _ _ ?z => replace (tau * (val sigma * val sigma * INR j * INR j) / 2 * (h * h)) with z by field end. exact P5.
Qed.
Lemma B_prel : forall j, (1 <= j <= n)%nat ->
  prel 11 (b64_mul (b64_mul (b64_mul half dtb) dxb) (b64_mul (b64_sub r c) (xb j))) (tau * ((val r - val c) * INR j) / 2 * (h * h)).
Proof.
  intros j I. destruct half_prel as [PH TH]. destruct (node_prel j I) as [PX TX]. destruct step_prel as [PT TT]. destruct dx_prel as [PD TD].
  assert (T0 := moderate0_tame _ MC). assert (P0 : prel (101/100) (b64_sub r c) (val r - val c)) by (eapply prel_sub_exact; [exact FR|exact FC|exact T0|lia]).
  assert (T1 := tame_mul _ _ _ _ TH TT). assert (P1 : prel (203/100) _ _) by (eapply prel_mul; [exact PH|exact PT|exact T1| | | |]; sides).
  assert (T2 := tame_mul _ _ _ _ T1 TD). assert (P2 : prel (406/100) _ _) by (eapply prel_mul; [exact P1|exact PD|exact T2| | | |]; sides).
  assert (T3 := tame_mul _ _ _ _ T0 TX). assert (P3 : prel (406/100) _ _) by (eapply prel_mul; [exact P0|exact PX|exact T3| | | |]; sides).
  assert (T4 := tame_mul _ _ _ _ T2 T3). assert (P4 : prel 11 _ _) by (eapply prel_mul; [exact P2|exact P3|exact T4| | | |]; sides).
  match type of P4 with prel _ _ ?z => replace (tau * ((val r - val c) * INR j) / 2 * (h * h)) with z by field end. exact P4.
Qed.
Lemma Q_prel : prel 8 (b64_mul (b64_mul dtb dx2b) (b64_opp r)) (- (tau * val r) * (h * h)).
Proof.
  destruct step_prel as [PT TT]. pose proof dx2_prel as PD. pose proof tame_h2 as TD. destruct (val_opp r FR) as [FO VO].
  assert (PR : prel 0 (b64_opp r) (- val r)) by (rewrite <- VO; now apply prel_self).
  assert (TR : tame 50 (- val r)) by (destruct (moderate0_tame _ MR) as [E|E]; [left; lra|right; now rewrite Rabs_Ropp]).
  assert (T1 := tame_mul _ _ _ _ TT TD). assert (P1 : prel (51/10) _ _) by (eapply prel_mul; [exact PT|exact PD|exact T1| | | |]; sides).
  assert (T2 := tame_mul _ _ _ _ T1 TR). assert (P2 : prel 8 _ _) by (eapply prel_mul; [exact P1|exact PR|exact T2| | | |]; sides).
  match type of P2 with prel _ _ ?z => replace (- (tau * val r) * (h * h)) with z by ring end. exact P2.
Qed.

(** One step at an inner node, against exact weights. *)
Variable K : R.
Hypothesis MK : moderate K.
Hypothesis ST : steady (val sigma) (val r) (val c) tau (n - 1).
Lemma tau_pos : 0 < tau.
Proof.
  clear HJ MJ. unfold tau. destruct MTD as [A _]. pose proof (bpow_gt_0 radix2 (-50)). apply Rdiv_lt_0_compat; [lra|]. rewrite <- minus_IZR. apply IZR_lt. lia.
Qed.
Lemma h_pos : 0 < h.
Proof.
  clear HN. unfold h. destruct MXD as [A _]. pose proof (bpow_gt_0 radix2 (-50)). apply Rdiv_lt_0_compat; [lra|]. rewrite <- minus_IZR. apply IZR_lt. lia.
Qed.
Lemma node_update : forall j ol om oh, (1 <= j <= n - 2)%nat -> finite ol -> finite om -> finite oh ->
  Rabs (val ol) <= 101/100 * K -> Rabs (val om) <= 101/100 * K -> Rabs (val oh) <= 101/100 * K ->
  let A := b64_mul dtb (b64_mul (b64_mul (b64_mul (b64_mul half sigma) sigma) (xb j)) (xb j)) in
  let B := b64_mul (b64_mul (b64_mul half dtb) dxb) (b64_mul (b64_sub r c) (xb j)) in
  let Q := b64_mul (b64_mul dtb dx2b) (b64_opp r) in
  let z := b64_div (b64_add (b64_add (b64_mul (b64_sub A B) ol) (b64_mul (b64_add (b64_sub dx2b (b64_mul (b64_ofZ 2) A)) Q) om)) (b64_mul (b64_add A B) oh)) dx2b in
  finite z /\ Rabs (val z - (weight_down (val sigma) (val r) (val c) tau j * val ol + weight_stay (val sigma) (val r) tau j * val om
                            + weight_up (val sigma) (val r) (val c) tau j * val oh)) <= 63 * (uu * K).
Proof.
  intros j ol om oh I F1 F2 F3 B1 B2 B3 A B Q z. pose proof uu_val as U.
  destruct (A_prel j ltac:(lia)) as [FA HA]. destruct (B_prel j ltac:(lia)) as [FB HB]. destruct Q_prel as [FQ HQ]. destruct dx2_prel as [FD HD].
  fold A in FA, HA. fold B in FB, HB. fold Q in FQ, HQ.
  destruct (halves _ _ _ _ _ (Rlt_le _ _ tau_pos) ST j ltac:(lia)) as (A0 & BA & Q0 & AQ). cbn zeta in *.
  set (a := tau * (val sigma * val sigma * INR j * INR j) / 2) in *. set (b := tau * ((val r - val c) * INR j) / 2) in *. set (q := tau * val r) in *.
  replace (weight_down (val sigma) (val r) (val c) tau j) with (a - b) by (unfold weight_down, a, b; field).
  replace (weight_stay (val sigma) (val r) tau j) with (1 - 2 * a - q) by (unfold weight_stay, a, q; field).
  replace (weight_up (val sigma) (val r) (val c) tau j) with (a + b) by (unfold weight_up, a, b; field).
  assert (S0 : 0 < h * h) by (pose proof h_pos; nra). set (S := h * h) in *.
  assert (SB : bpow radix2 (-164) <= S <= bpow radix2 164).
  { destruct tame_h2 as [E|E]; fold S in E; [lra|]. rewrite Rabs_pos_eq in E by lra. exact E. }
  destruct MK as [K1 K2]. assert (K0 : 0 < K) by (pose proof (bpow_gt_0 radix2 (-50)); lra).
  assert (SK : bpow radix2 (-214) <= S * K <= bpow radix2 214).
  { replace (-214)%Z with (-164 + -50)%Z by reflexivity. replace 214%Z with (164 + 50)%Z by reflexivity. rewrite !bpow_plus.
    pose proof (bpow_gt_0 radix2 (-50)). pose proof (bpow_gt_0 radix2 (-164)). split; apply Rmult_le_compat; lra. }
  assert (TINY : forall v, bpow radix2 (-214) <= v -> 100 * eta0 <= uu * v).
  { intros v V. unfold eta0, uu. assert (bpow radix2 (-52) * bpow radix2 (-214) <= bpow radix2 (-52) * v) by (apply Rmult_le_compat_l; [apply bpow_ge_0|exact V]).
    rewrite <- bpow_plus in H. pose proof (bpow_le radix2 (7 + -1074) (-52 + -214) ltac:(lia)) as L. rewrite bpow_plus in L. change (bpow radix2 7) with 128 in L.
    pose proof (bpow_gt_0 radix2 (-1074)). lra. }
  assert (BIGB : forall v, v <= bpow radix2 214 -> 2 * v <= bpow radix2 1000).
  { intros v V. pose proof (bpow_le radix2 (1 + 214) 1000 ltac:(lia)) as L. rewrite bpow_plus in L. change (bpow radix2 1) with 2 in L. lra. }
  pose proof (bpow_le radix2 164 214 ltac:(lia)) as L1. pose proof (bpow_le radix2 50 214 ltac:(lia)) as L2.
  pose proof (bpow_le radix2 (-214) (-164) ltac:(lia)) as L3. pose proof (bpow_le radix2 (-214) (-50) ltac:(lia)) as L4.
  assert (WS : 0 < uu * S) by (rewrite U; lra).
  assert (AS : a * (uu * S) <= / 2 * (uu * S)) by (apply Rmult_le_compat_r; lra).
  assert (BS : Rabs b * (uu * S) <= / 2 * (uu * S)) by (apply Rmult_le_compat_r; lra).
  assert (QS : q * (uu * S) <= 1 * (uu * S)) by (apply Rmult_le_compat_r; lra).
  rewrite Rabs_mult, (Rabs_pos_eq S), (Rabs_pos_eq a) in HA by lra. rewrite Rabs_mult, (Rabs_pos_eq S) in HB by lra.
  rewrite Rabs_mult, Rabs_Ropp, (Rabs_pos_eq S), (Rabs_pos_eq q) in HQ by lra. rewrite (Rabs_pos_eq S) in HD by lra.
  apply (update A B Q dx2b ol om oh S a b q K); auto; try lra; try (apply BIGB; lra); try (apply TINY; lra).
  replace (val Q + q * S) with (val Q - - q * S) by ring. lra.
Qed.
End Numbers.

(** ** The clock *)
Section Clock.
Variable fexp flog : b64 -> b64.
Local Notation num := (B64 fexp flog).
Variable cf : Conf b64.
Variables T tau : R.
Hypothesis T0 : 100 * eta0 <= uu * T. Hypothesis TB : 4 * T <= bpow radix2 1000.
Hypothesis TP : 0 < tau <= T.
Hypothesis DT : prel (101/100) (cDt cf) tau.
Lemma clock_near : forall i t y e, finite t -> Rabs (val t - y) <= e -> 0 <= y -> y + INR i * tau <= 2 * T -> e + INR i * (5 * (uu * T)) <= T / 2 ->
  finite (@clock b64 num cf i t) /\ Rabs (val (@clock b64 num cf i t) - (y + INR i * tau)) <= e + INR i * (5 * (uu * T)).
Proof.
  pose proof uu_val as U. destruct DT as [FD HD]. rewrite (Rabs_pos_eq tau) in HD by lra.
  assert (UT : uu * tau <= uu * T) by (apply Rmult_le_compat_l; [rewrite U|]; lra).
  assert (W : 0 < uu * T <= T / 1000000) by (rewrite U; lra).
  induction i as [|i IH]; intros t y e F E Y YB EB; cbn [clock].
  - cbn [INR]. rewrite !Rmult_0_l, !Rplus_0_r. auto.
  - rewrite S_INR in *. pose proof (pos_INR i) as I0. assert (IT : 0 <= INR i * tau) by (apply Rmult_le_pos; lra). assert (IU : 0 <= INR i * (5 * (uu * T))) by (apply Rmult_le_pos; lra).
    destruct (val_add t (cDt cf) F FD) as [NN V].
    destruct (fl_unit _ _ (y + tau) (e + 102/100 * (uu * T)) (3 * T) (e + 5 * (uu * T)) NN V) as [F1 E1].
    + replace (val t + val (cDt cf) - (y + tau)) with ((val t - y) + (val (cDt cf) - tau)) by ring. eapply Rle_trans; [apply Rabs_triang|]. lra.
    + rewrite Rabs_pos_eq by lra. lra.
    + rewrite (Rmult_comm 3), <- Rmult_assoc. lra.
    + lra.
    + rewrite (Rmult_comm 3), <- Rmult_assoc. lra.
    + destruct (IH _ (y + tau) _ F1 E1 ltac:(lra) ltac:(lra) ltac:(lra)) as [F2 E2]. split; [exact F2|].
      replace (y + (INR i + 1) * tau) with (y + tau + INR i * tau) by ring. eapply Rle_trans; [exact E2|]. lra.
Qed.
End Clock.

(** ** The initial values *)
Lemma put_value : forall (K x : b64) y, finite K -> moderate (val K) -> finite x -> 0 <= y <= bpow radix2 200 -> Rabs (val x - y) <= 203/100 * uu * y ->
  let p := nmax (b64_sub K x) (b64_ofZ 0) in finite p /\ Rabs (val p - Rmax (val K - y) 0) <= 4 * (uu * val K).
Proof.
  intros K x y FK [K1 K2] FX Y E p. pose proof uu_val as U. pose proof (bpow_gt_0 radix2 (-50)).
  destruct (val_sub K x FK FX) as [NN V]. destruct (max0_val _ NN) as [NM VM]. change (notnan p) in NM. change (val p = Rmax 0 (val (b64_sub K x))) in VM. rewrite Rmax_comm in VM. clearbody p.
  destruct (Rle_lt_dec y (val K * (1 + 4 * uu))) as [L|L].
  - assert (YU : uu * y <= uu * (1001/1000 * val K)) by (apply Rmult_le_compat_l; rewrite U in *; lra).
    assert (UK : 0 < uu * val K) by (rewrite U; lra).
    assert (YB : Rabs (val K - y) <= 1001/1000 * val K) by (apply Rabs_le; rewrite U in *; lra).
    destruct (fl_unit _ _ (val K - y) (204/100 * (uu * val K)) (101/100 * val K) (4 * (uu * val K)) NN V) as [F1 E1].
    + replace (val K - val x - (val K - y)) with (- (val x - y)) by ring. rewrite Rabs_Ropp. lra.
    + rewrite U in *. lra.
    + unfold eta0, uu. assert (Q : bpow radix2 (-52) * bpow radix2 (-50) <= bpow radix2 (-52) * (101/100 * val K)) by (apply Rmult_le_compat_l; [apply bpow_ge_0|lra]).
      rewrite <- bpow_plus in Q. pose proof (bpow_le radix2 (7 + -1074) (-52 + -50) ltac:(lia)) as L1. rewrite bpow_plus in L1. change (bpow radix2 7) with 128 in L1.
      pose proof (bpow_gt_0 radix2 (-1074)). lra.
    + pose proof (bpow_le radix2 (1 + 50) 1000 ltac:(lia)) as L1. rewrite bpow_plus in L1. change (bpow radix2 1) with 2 in L1. lra.
    + rewrite U. lra.
    + split; [|rewrite VM; eapply Rle_trans; [|exact E1]; unfold Rmax; repeat destruct (Rle_dec _ _); unfold Rabs; repeat destruct (Rcase_abs _); lra].
      apply finite_of_val; [exact NM|]. rewrite VM. pose proof (val_bounds _ F1). pose proof INF_pos. unfold Rmax. destruct (Rle_dec _ _); lra.
  - apply Rabs_le_inv in E.
    assert (XK : val K <= val x) by (rewrite U in *; lra).
    assert (Z : val p = 0).
    { rewrite VM, V. apply Rmax_right. rewrite <- fl_0. apply fl_le. lra. }
    split; [apply finite_of_val; [exact NM|rewrite Z; pose proof INF_pos; lra]|]. rewrite Z, Rmax_right by (rewrite U in *; lra). rewrite Rminus_eq_0, Rabs_R0. rewrite U. lra.
Qed.

(** ** C129 *)
Section Run.
Variable fexp flog : b64 -> b64.
Local Notation num := (B64 fexp flog).

Theorem C129_put : forall lu xDom J tDom N K o cf s w d,
  vanilla64 fexp flog KExplicit xDom J tDom N Put K o cf s -> read (optTicker o) w = Ok d ->
  let sigma := getSigma d in let r := getR w in let q := coupon64 d in
  (2 <= N <= 2 ^ 25)%Z -> moderate64 xDom -> moderate64 tDom -> moderate64 sigma -> moderate64 K ->
  finite r -> finite q -> moderate_or_zero (val r) -> moderate_or_zero (val r - val q) ->
  let dt := val tDom / (IZR N - 1) in let h := val xDom / (IZR J - 1) in let last := (Z.to_nat J - 1)%nat in
  steady (val sigma) (val r) (val q) dt last ->
  exists m v s', (m = Z.to_nat (N - 1) \/ m = Z.to_nat N) /\
    (forall fuel, (m <= fuel)%nat -> @solve b64 num lu cf w fuel s = Some (Ok v, s')) /\
    forall j, (j <= last)%nat -> finite (at64 v j) /\
      Rabs (val (at64 v j) - put_grid (val sigma) (val r) (val q) dt h (val K) last m j) <= (4 + 64 * INR m) * bpow radix2 (-53) * val K.
Proof.
  intros lu xDom J tDom N K o cf s w d (HJ & MX & PO & ip & mem & w0 & E) RD sigma r q HN [FX MXD] [FT MTD] [FS MS] [FK MK] FR FQ MR MC dt h last ST.
  destruct (ctor_grid64 _ _ _ _ _ _ _ _ _ _ _ _ _ _ HJ E) as (PE & OG & SZ & N4 & TP & TC & _ & D1 & D2 & D3 & D4 & IV & _).
  set (n := Z.to_nat J) in *. pose proof (bs_evaluates64 fexp flog o w d Put K RD PO) as EV. rewrite <- PE in EV. cbn [PayoffType_eqb] in EV.
  fold sigma r q in EV.
  set (k := @bs_data b64 num sigma r q false K (optT o)) in *.
  assert (SC : cScheme cf = EulerExplicit) by (destruct OG as (_ & _ & _ & _ & _ & SC); exact SC).
  pose proof uu_val as U. assert (UB : bpow radix2 (-53) = uu) by (rewrite U; change (bpow radix2 (-53)) with (/ 9007199254740992); reflexivity).
  assert (K0 : 0 < val K) by (destruct MK; pose proof (bpow_gt_0 radix2 (-50)); lra).
  assert (HP := h_pos xDom J ltac:(lia) MXD). assert (TPOS := tau_pos tDom J N HN MTD). change (val xDom / (IZR J - 1)) with h in HP. change (val tDom / (IZR N - 1)) with dt in TPOS.
  set (G := put_grid (val sigma) (val r) (val q) dt h (val K) last).
  assert (GB : forall i j, (j <= last)%nat -> 0 <= G i j <= val K) by (intros i j I; apply put_grid_bounds; auto; lra).
  set (ok := fun i (s1 : Fdm b64) => sized cf s1 n /\ fTCurr s1 = fTPrev s1 /\
    (forall j, (j <= last)%nat -> finite (at64 (fOld s1) j) /\ Rabs (val (at64 (fOld s1) j) - G i j) <= (4 + 64 * INR i) * uu * val K) /\
    ((0 < i)%nat -> fNew s1 = fOld s1)).
  assert (OK0 : ok 0%nat s).
  { split; [exact SZ|]. split; [congruence|]. split; [|lia]. intros j I. unfold G. cbn [put_grid INR].
    specialize (IV j ltac:(unfold last, n in *; lia)). cbn [initialCondition BlackScholesPDE] in IV. unfold option_payoff1 in IV. rewrite PO in IV. cbn [payoff1 PayoffType_eqb] in IV.
    assert (IW : at64 (fOld s) j = nmax (b64_sub K (at64 (cX cf) j)) (b64_ofZ 0)) by (injection IV; intros Q; symmetry; exact Q).
    assert (XJ : at64 (cX cf) j = b64_mul (b64_ofZ (Z.of_nat j)) (cDx cf)).
    { rewrite D4. exact (at_seq fexp flog n N4 (fun i => b64_mul (b64_ofZ (Z.of_nat i)) (cDx cf)) 0 n j ltac:(unfold last, n in *; lia)). }
    rewrite IW. replace ((4 + 64 * 0) * uu * val K) with (4 * (uu * val K)) by ring.
    assert (PX : prel (203/100) (at64 (cX cf) j) (INR j * h) /\ tame 114 (INR j * h)).
    { rewrite XJ, D2. destruct (Nat.eq_dec j 0) as [->|NZ].
      - destruct (dx_prel xDom J ltac:(lia) MX FX MXD) as [[FD _] _]. destruct (val_mul (b64_ofZ (Z.of_nat 0)) _ eq_refl FD) as [NN V].
        change (val (b64_ofZ (Z.of_nat 0))) with 0 in V. rewrite Rmult_0_l, fl_0 in V. cbn [INR]. rewrite Rmult_0_l.
        split; [|now left]. split; [apply finite_of_val; [exact NN|rewrite V; pose proof INF_pos; lra]|]. rewrite V, Rminus_eq_0, Rabs_R0. lra.
      - apply (node_prel xDom J ltac:(lia) MX FX MXD j). unfold last, n in *. lia. }
    destruct PX as [[FXJ HXJ] TXJ]. assert (Y0 : 0 <= INR j * h) by (apply Rmult_le_pos; [apply pos_INR|lra]). rewrite (Rabs_pos_eq (INR j * h)) in HXJ by exact Y0.
    apply put_value; auto. split; [exact Y0|]. destruct TXJ as [->|[_ B]]; [apply bpow_ge_0|]. rewrite Rabs_pos_eq in B by exact Y0.
    eapply Rle_trans; [exact B|]. apply bpow_le. lia. }
  assert (STEP : forall i s1, INR i <= 33554432 -> ok i s1 -> exists s2, @time_step b64 num lu cf w s1 = (Ok tt, s2) /\ ok (S i) s2).
  { intros i s1 IB (SZ1 & T1 & V1 & _). eexists. pose proof (@explicit_step b64 num lu cf w k n EV s1 SC SZ1 ltac:(lia)) as ES. split; [exact ES|].
    split; [exact (sized_step _ _ _ _ _ _ _ _ SZ1 ES)|]. split; [reflexivity|]. split; [|reflexivity].
    intros j I. cbn [fOld]. pose proof (pos_INR i) as I0. rewrite S_INR.
    assert (UK : 0 < uu * val K) by (rewrite U; lra).
    assert (AT : at64 (@explicit_new b64 num cf k n s1) j = if Nat.eqb j 0 then kl k (fTPrev s1) (at64 (cX cf) 0) else if Nat.eqb j (n - 1) then kg k (fTPrev s1) (at64 (cX cf) (n - 1))
                else @explicit_value b64 num cf k s1 j).
    { unfold explicit_new. exact (at_seq fexp flog n N4 _ 0 n j ltac:(unfold last in I; lia)). }
    rewrite AT. clear AT. unfold G. cbn [put_grid]. change (n - 1)%nat with last.
    assert (NN0 : 0 <= (4 + 64 * (INR i + 1)) * uu * val K) by (rewrite Rmult_assoc; apply Rmult_le_pos; lra).
    destruct (Nat.eqb_spec j 0) as [->|J0].
    { cbn [kl k bs_data]. split; [exact FK|]. rewrite Rminus_eq_0, Rabs_R0. exact NN0. }
    destruct (Nat.eqb_spec j last) as [->|J1].
    { cbn [kg k bs_data]. split; [reflexivity|]. change (val n0) with (val (b64_ofZ 0)). rewrite zero_val, Rminus_eq_0, Rabs_R0. exact NN0. }
    fold G. unfold explicit_value. cbn zeta. cbn [kd kc kr kf k bs_data].
    assert (XJ : L_Fdm.at_ (cX cf) j = b64_mul (b64_ofZ (Z.of_nat j)) (cDx cf)).
    { rewrite D4. exact (at_seq fexp flog n N4 (fun i => b64_mul (b64_ofZ (Z.of_nat i)) (cDx cf)) 0 n j ltac:(unfold last in *; lia)). }
    destruct (V1 (j - 1)%nat ltac:(lia)) as [F1 B1]. destruct (V1 j ltac:(lia)) as [F2 B2]. destruct (V1 (j + 1)%nat ltac:(unfold last in *; lia)) as [F3 B3].
    pose proof (GB i (j - 1)%nat ltac:(lia)) as G1. pose proof (GB i j ltac:(lia)) as G2. pose proof (GB i (j + 1)%nat ltac:(unfold last in *; lia)) as G3.
    change (L_Fdm.at_ (fOld s1)) with (at64 (fOld s1)).
    set (ol := at64 (fOld s1) (j - 1)) in *. set (om := at64 (fOld s1) j) in *. set (oh := at64 (fOld s1) (j + 1)) in *.
    set (EE := (4 + 64 * INR i) * uu * val K) in *.
    assert (EB : 0 <= EE <= / 100 * val K).
    { unfold EE. split; [rewrite Rmult_assoc; apply Rmult_le_pos; lra|]. apply Rmult_le_compat_r; [lra|]. rewrite U. lra. }
    assert (OB : forall o g, Rabs (val o - g) <= EE -> 0 <= g <= val K -> Rabs (val o) <= 101/100 * val K).
    { intros oo g OG1 GG. apply Rabs_le_inv in OG1. apply Rabs_le. lra. }
    destruct (node_update fexp flog xDom tDom sigma r q J N ltac:(lia) MX HN FX MXD FT MTD FS MS FR MR FQ MC (val K) MK ST j ol om oh
      ltac:(unfold last, n in *; lia) F1 F2 F3 (OB _ _ B1 G1) (OB _ _ B2 G2) (OB _ _ B3 G3)) as [FZ HZ]. cbn zeta in FZ, HZ.
    rewrite <- D1, <- D2 in FZ, HZ. rewrite <- D3 in FZ, HZ. rewrite <- XJ in FZ, HZ.
    match type of FZ with finite ?z => set (zz := z) in * end.
    match goal with |- finite ?t /\ _ => change t with (b64_sub zz (b64_mul (cDt cf) (b64_ofZ 0))) end. clearbody zz.
    assert (FDT : finite (cDt cf)) by (rewrite D1; apply (step_prel tDom J N HN FT MTD)).
    destruct (zero_mul _ FDT) as [NM VM]. assert (FM : finite (b64_mul (cDt cf) (b64_ofZ 0))) by (apply finite_of_val; [exact NM|rewrite VM; pose proof INF_pos; lra]).
    destruct (val_sub _ _ FZ FM) as [NS VS]. rewrite VM, Rminus_0_r, (fl_fin zz FZ) in VS.
    split; [apply finite_of_val; [exact NS|rewrite VS; pose proof (val_bounds _ FZ); lra]|]. rewrite VS.
    change (val tDom / (IZR N - 1)) with dt in HZ.
    destruct (halves _ _ _ _ _ (Rlt_le _ _ TPOS) ST j ltac:(unfold last in *; lia)) as (A0 & BA & Q0 & AQ). cbn zeta in *. apply Rabs_le_inv in BA.
    set (a := dt * (val sigma * val sigma * INR j * INR j) / 2) in *. set (b := dt * ((val r - val q) * INR j) / 2) in *.
    assert (W1 : weight_down (val sigma) (val r) (val q) dt j = a - b) by (unfold weight_down, a, b; field).
    assert (W2 : weight_stay (val sigma) (val r) dt j = 1 - 2 * a - dt * val r) by (unfold weight_stay, a; field).
    assert (W3 : weight_up (val sigma) (val r) (val q) dt j = a + b) by (unfold weight_up, a, b; field).
    rewrite W1, W2, W3 in *. clear W1 W2 W3. clearbody a b ol om oh. set (qq := dt * val r) in *. clearbody qq.
    change (put_grid (val sigma) (val r) (val q) dt h (val K) last) with G.
    set (g1 := G i (j - 1)%nat) in *. set (g2 := G i j) in *. set (g3 := G i (j + 1)%nat) in *. clearbody g1 g2 g3.
    apply Rabs_le_inv in B1, B2, B3, HZ.
    assert (P1 : - ((a - b) * EE) <= (a - b) * (val ol - g1) <= (a - b) * EE).
    { split; [rewrite Ropp_mult_distr_r|]; apply Rmult_le_compat_l; lra. }
    assert (P2 : - ((1 - 2 * a - qq) * EE) <= (1 - 2 * a - qq) * (val om - g2) <= (1 - 2 * a - qq) * EE).
    { split; [rewrite Ropp_mult_distr_r|]; apply Rmult_le_compat_l; lra. }
    assert (P3 : - ((a + b) * EE) <= (a + b) * (val oh - g3) <= (a + b) * EE).
    { split; [rewrite Ropp_mult_distr_r|]; apply Rmult_le_compat_l; lra. }
    assert (P4 : 0 <= qq * EE) by (apply Rmult_le_pos; lra).
    replace ((4 + 64 * (INR i + 1)) * uu * val K) with (EE + 64 * (uu * val K)) by (unfold EE; ring).
    apply Rabs_le. lra. }
  assert (RUN : forall m, INR m <= 33554432 -> exists s1, @steps b64 num lu cf w m s s1 /\ ok m s1).
  { clear - STEP OK0. assert (GEN : forall m i s1, INR i + INR m <= 33554432 -> ok i s1 -> exists s2, @steps b64 num lu cf w m s1 s2 /\ ok (i + m)%nat s2).
    { induction m as [|m IH]; intros i s1 IB O.
      - exists s1. rewrite Nat.add_0_r. split; [constructor|exact O].
      - rewrite S_INR in IB. pose proof (pos_INR m). destruct (STEP i s1 ltac:(lra) O) as (s2 & E2 & O2).
        destruct (IH (S i) s2) as (s3 & E3 & O3); [rewrite S_INR; lra|exact O2|]. exists s3. split; [econstructor; [exact E2|exact E3]|].
        replace (i + S m)%nat with (S i + m)%nat by lia. exact O3. }
    intros m MB. destruct (GEN m 0%nat s) as (s2 & A & B); [cbn [INR]; lra|exact OK0|]. exists s2. auto. }
  assert (DONE : forall m, INR m <= 33554432 -> (0 < m)%nat ->
    (forall i, (i < m)%nat -> M_Num.nltb (Num := num) (@clock b64 num cf i (fTPrev s)) (cTDom cf) = true) ->
    M_Num.nltb (Num := num) (@clock b64 num cf m (fTPrev s)) (cTDom cf) = false ->
    exists v s', (forall fuel, (m <= fuel)%nat -> @solve b64 num lu cf w fuel s = Some (Ok v, s')) /\
      forall j, (j <= last)%nat -> finite (at64 v j) /\ Rabs (val (at64 v j) - G m j) <= (4 + 64 * INR m) * bpow radix2 (-53) * val K).
  { intros m MB M0 L1 L2. destruct (RUN m MB) as (s1 & ST1 & (_ & _ & V1 & NW)). exists (fNew s1), (finished s1). split.
    - intros fuel FU. assert (MA := @steps_march b64 num lu cf w m fuel s s1 ltac:(congruence) L1 L2 ST1 FU). unfold solve. rewrite MA. reflexivity.
    - rewrite (NW M0), UB. exact V1. }
  assert (INN : INR (Z.to_nat (N - 1)) = IZR N - 1) by (rewrite INR_IZR_INZ, Z2Nat.id by lia; apply minus_IZR).
  assert (NR : 2 <= IZR N <= 33554432) by (split; apply IZR_le; lia).
  assert (CL : forall i, (i <= Z.to_nat N)%nat -> finite (@clock b64 num cf i (fTPrev s)) /\ Rabs (val (@clock b64 num cf i (fTPrev s)) - INR i * dt) <= INR i * (5 * (uu * val tDom))).
  { intros i I. assert (IN : INR i <= IZR N) by (apply le_INR in I; rewrite (INR_IZR_INZ (Z.to_nat N)), Z2Nat.id in I by lia; exact I).
    destruct MTD as [MT1 MT2]. pose proof (bpow_gt_0 radix2 (-50)) as B50. pose proof (pos_INR i) as I0.
    assert (DTT : dt * (IZR N - 1) = val tDom) by (unfold dt; field; lra).
    replace (INR i * dt) with (0 + INR i * dt) by ring. replace (INR i * (5 * (uu * val tDom))) with (0 + INR i * (5 * (uu * val tDom))) by ring.
    apply (clock_near fexp flog cf (val tDom) dt).
    - unfold eta0, uu. assert (Q : bpow radix2 (-52) * bpow radix2 (-50) <= bpow radix2 (-52) * val tDom) by (apply Rmult_le_compat_l; [apply bpow_ge_0|lra]).
      rewrite <- bpow_plus in Q. pose proof (bpow_le radix2 (7 + -1074) (-52 + -50) ltac:(lia)) as L1. rewrite bpow_plus in L1. change (bpow radix2 7) with 128 in L1.
      pose proof (bpow_gt_0 radix2 (-1074)). lra.
    - pose proof (bpow_le radix2 (2 + 50) 1000 ltac:(lia)) as L1. rewrite bpow_plus in L1. change (bpow radix2 2) with 4 in L1. lra.
    - split; [exact TPOS|]. nra.
    - rewrite D1. apply (step_prel tDom J N HN FT (conj MT1 MT2)).
    - rewrite TP. reflexivity.
    - rewrite TP, zero_val, Rminus_eq_0, Rabs_R0. lra.
    - lra.
    - assert (INR i * dt <= IZR N * dt) by (apply Rmult_le_compat_r; lra). nra.
    - assert (INR i * (5 * (uu * val tDom)) <= 33554432 * (5 * (uu * val tDom))) by (apply Rmult_le_compat_r; [rewrite U; lra|lra]). rewrite U in *. lra. }
  assert (TDC : cTDom cf = tDom) by (destruct OG as (TDE & _); exact TDE).
  assert (DTT : dt * (IZR N - 1) = val tDom) by (unfold dt; field; lra).
  assert (GAP : IZR N * (5 * (uu * val tDom)) < dt).
  { assert (T0 : 0 < val tDom) by (destruct MTD; pose proof (bpow_gt_0 radix2 (-50)); lra).
    apply Rmult_lt_reg_r with (IZR N - 1); [lra|]. rewrite DTT.
    assert (IZR N * (IZR N - 1) <= 33554432 * 33554432) by (apply Rmult_le_compat; lra).
    assert (IZR N * (IZR N - 1) * (5 * (uu * val tDom)) <= 33554432 * 33554432 * (5 * (uu * val tDom))) by (apply Rmult_le_compat_r; [rewrite U; lra|lra]).
    rewrite U in *. lra. }
  assert (UT : 0 <= 5 * (uu * val tDom)) by (destruct MTD; pose proof (bpow_gt_0 radix2 (-50)); rewrite U; lra).
  assert (BEFORE : forall i, (i < Z.to_nat (N - 1))%nat -> M_Num.nltb (Num := num) (@clock b64 num cf i (fTPrev s)) (cTDom cf) = true).
  { intros i I. destruct (CL i ltac:(lia)) as [FI HI]. rewrite TDC. change (b64_ltb (@clock b64 num cf i (fTPrev s)) tDom = true). apply ltb_true_iff.
    split; [now apply finite_notnan|]. split; [now apply finite_notnan|].
    assert (IN : INR i + 1 <= IZR N - 1) by (rewrite <- INN, <- S_INR; apply le_INR; lia). pose proof (pos_INR i).
    assert (INR i * dt <= (IZR N - 2) * dt) by (apply Rmult_le_compat_r; lra).
    assert (INR i * (5 * (uu * val tDom)) <= IZR N * (5 * (uu * val tDom))) by (apply Rmult_le_compat_r; lra).
    apply Rabs_le_inv in HI. lra. }
  destruct (M_Num.nltb (Num := num) (@clock b64 num cf (Z.to_nat (N - 1)) (fTPrev s)) (cTDom cf)) eqn:AT.
  - destruct (DONE (Z.to_nat N)) as (v & s' & R1 & R2).
    + rewrite INR_IZR_INZ, Z2Nat.id by lia. lra.
    + lia.
    + intros i I. destruct (Nat.eq_dec i (Z.to_nat (N - 1))) as [->|NE]; [exact AT|]. apply BEFORE. lia.
    + destruct (CL (Z.to_nat N) ltac:(lia)) as [FI HI]. rewrite TDC.
      destruct (M_Num.nltb (Num := num) (@clock b64 num cf (Z.to_nat N) (fTPrev s)) tDom) eqn:LT; [|reflexivity]. exfalso.
      apply ltb_true_iff in LT as (_ & _ & LT). rewrite INR_IZR_INZ, Z2Nat.id in HI by lia. apply Rabs_le_inv in HI. lra.
    + exists (Z.to_nat N), v, s'. split; [now right|]. split; [exact R1|exact R2].
  - destruct (DONE (Z.to_nat (N - 1))) as (v & s' & R1 & R2); [rewrite INN; lra|lia|exact BEFORE|exact AT|].
    exists (Z.to_nat (N - 1)), v, s'. split; [now left|]. split; [exact R1|exact R2].
Qed.
End Run.
Print Assumptions C129_put.

(** The reference is what the code computes in exact arithmetic. *)
Theorem C129_reference : forall lu xDom J tDom N K o ip mem w0 (cf : Conf R) s w d,
  (4 <= J < ULONG_MOD)%Z -> (2 <= N < ULONG_MOD)%Z -> 0 < xDom -> 0 < tDom -> optPayoff o = PVanilla Put K ->
  Fdm_ctor KExplicit xDom J tDom N (BlackScholesPDE o) o ip (Some ThomasAlgorithm) mem w0 = Ok (cf, s) -> read (optTicker o) w = Ok d ->
  let m := Z.to_nat (N - 1) in let last := (Z.to_nat J - 1)%nat in
  exists v s', (forall fuel, (m <= fuel)%nat -> solve lu cf w fuel s = Some (Ok v, s')) /\
    forall j, (j <= last)%nat ->
      el v j = put_grid (getSigma d) (getR w) (S_Model.dividend d) (tDom / (IZR N - 1)) (xDom / (IZR J - 1)) K last m j.
Proof.
  intros lu xDom J tDom N K o ip mem w0 cf s w d HJ HN HX HT PO E RD m last.
  pose proof (bs_evaluates o w d Put K RD PO (or_intror eq_refl)) as EV.
  assert (HJ2 : (2 <= J < ULONG_MOD)%Z) by lia.
  destruct (C68_run lu _ _ _ _ _ _ _ _ _ _ _ _ w _ HJ2 HN HX HT E EV) as (v & s' & SO & LY). fold m in SO, LY. exists v, s'. split; [exact SO|].
  destruct (ctor_grid _ _ _ _ _ _ _ _ _ _ _ _ _ HJ HN HX HT E) as (HH & DT & TD & N4 & M1 & XS & GE & X0 & X1 & IV).
  set (n := Z.to_nat J) in *. set (dt := tDom / (IZR N - 1)) in *. set (h := xDom / (IZR J - 1)) in *.
  clear SO. clearbody m. induction LY as [|m v v' LY IH LK]; intros j JL.
  - specialize (IV j ltac:(unfold last in JL; lia)). cbn [initialCondition BlackScholesPDE] in IV. unfold option_payoff1 in IV. rewrite PO in IV. cbn [payoff1 PayoffType_eqb] in IV.
    injection IV as <-. rewrite nmax_R. cbn [put_grid nsub n0 Rnum nofZ]. rewrite (proj1 (GE j ltac:(unfold last in JL; lia))). reflexivity.
  - destruct LK as (_ & K0 & K1 & KI). cbn [put_grid]. destruct (Nat.eqb_spec j 0) as [->|J0]; [exact K0|]. destruct (Nat.eqb_spec j last) as [->|J1]; [exact K1|].
    specialize (KI j ltac:(unfold last in *; lia)). unfold explicit_eq, space_at, space in KI. cbn [kd kc kr kf bs_coefs] in KI.
    rewrite (proj1 (GE j ltac:(unfold last in *; lia))) in KI.
    rewrite <- (IH (j - 1)%nat) by lia. rewrite <- (IH j) by lia. rewrite <- (IH (j + 1)%nat) by (unfold last in *; lia).
    assert (EQ : el v' j = el v j + dt * ((el v' j - el v j) / dt)) by (field; lra). rewrite EQ, KI. change (getSigma d) with (sigma_ d). change (getR w) with (mR w). unfold weight_down, weight_stay, weight_up. field. lra.
Qed.
Print Assumptions C129_reference.

(** A put at strike 3 on nodes 0, 2, 4, 6, 8 in ten steps; volatility 1/2, rate 1/16. *)
Definition w129 : Market b64 :=
  mkMarket (b64_div (b64_ofZ 1) (b64_ofZ 16)) [("A"%string, 0%nat)] [] [mkStock (b64_ofZ 4) half64 None] [].
Definition made129 : outcome (Conf b64 * Fdm b64) :=
  @Fdm_ctor b64 (B64 one one) KExplicit (b64_ofZ 8) 5 (b64_ofZ 1) 11 (@BlackScholesPDE b64 (B64 one one) (o64 Put 3)) (o64 Put 3) None (Some ThomasAlgorithm) (fun _ => b64_ofZ 0) w129.
Example C129_ex : forall lu, exists cf s,
  made129 = Ok (cf, s) /\
  exists m v s', (m = 10%nat \/ m = 11%nat) /\ (forall fuel, (m <= fuel)%nat -> @solve b64 (B64 one one) lu cf w129 fuel s = Some (Ok v, s')) /\
    forall j, (j <= 4)%nat -> Rabs (val (at64 v j) - put_grid (1/2) (1/16) 0 (1/10) 2 3 4 m j) <= 1/1000000000000.
Proof.
  intros lu. assert (CH : match made129 with Ok _ => true | _ => false end = true) by (vm_compute; reflexivity).
  destruct made129 as [[cf s]| |] eqn:E; [|discriminate..]. clear CH. exists cf, s. split; [reflexivity|].
  assert (V : vanilla64 one one KExplicit (b64_ofZ 8) 5 (b64_ofZ 1) 11 Put (b64_ofZ 3) (o64 Put 3) cf s).
  { split; [unfold ULONG_MOD; lia|]. split; [unfold INT_MAX; lia|]. split; [reflexivity|]. exists None, (fun _ => b64_ofZ 0), w129. exact E. }
  assert (Z : forall k, (1 <= k <= 8)%Z -> moderate64 (b64_ofZ k) /\ val (b64_ofZ k) = IZR k).
  { intros k KK. destruct (ofZ_fmt k) as [F VK]; [lia|]. split; [|exact VK]. split; [exact F|]. rewrite VK. unfold moderate.
    assert (1 <= IZR k <= 8) by (split; apply IZR_le; lia). pose proof (bpow_le radix2 (-50) 0 ltac:(lia)) as L1. pose proof (bpow_le radix2 3 50 ltac:(lia)) as L2.
    change (bpow radix2 0) with 1 in L1. change (bpow radix2 3) with 8 in L2. lra. }
  destruct (Z 8%Z ltac:(lia)) as [M8 V8]. destruct (Z 1%Z ltac:(lia)) as [M1 V1]. destruct (Z 3%Z ltac:(lia)) as [M3 V3].
  assert (VH : val half64 = 1/2) by (vm_compute; lra). assert (VR : val (b64_div (b64_ofZ 1) (b64_ofZ 16)) = 1/16) by (vm_compute; lra).
  assert (MB : forall x, / 16 <= x <= 1 -> moderate x).
  { intros x X. unfold moderate. pose proof (bpow_le radix2 (-50) (-4) ltac:(lia)) as L1. pose proof (bpow_le radix2 0 50 ltac:(lia)) as L2.
    change (bpow radix2 0) with 1 in L2. change (bpow radix2 (-4)) with (/ 16) in L1. lra. }
  pose proof (C129_put one one lu _ _ _ _ _ _ cf s w129 (mkStock (b64_ofZ 4) half64 None) V eq_refl) as C. cbn zeta in C.
  change (getSigma (mkStock (b64_ofZ 4) half64 None)) with half64 in C. change (getR w129) with (b64_div (b64_ofZ 1) (b64_ofZ 16)) in C.
  change (coupon64 (mkStock (b64_ofZ 4) half64 None)) with (b64_ofZ 0) in C.
  rewrite V8, V1, V3, VH, VR, zero_val in C.
  assert (MH : moderate64 half64) by (split; [reflexivity|rewrite VH; apply MB; lra]).
  assert (MQ : moderate_or_zero (1/16)) by (right; rewrite Rabs_pos_eq by lra; apply MB; lra).
  assert (MQ' : moderate_or_zero (1/16 - 0)) by (rewrite Rminus_0_r; exact MQ).
  assert (PN : (2 <= 11 <= 2 ^ 25)%Z) by lia. specialize (C PN M8 M1 MH M3 eq_refl eq_refl MQ MQ').
  change (Z.to_nat 5 - 1)%nat with 4%nat in C. change (Z.to_nat (11 - 1)) with 10%nat in C. change (Z.to_nat 11) with 11%nat in C.
  destruct C as (m & v & s' & MM & SO & B).
  { split; [lra|]. rewrite Rminus_0_r, Rabs_pos_eq by lra. split; [lra|]. cbn [INR Nat.sub]. lra. }
  exists m, v, s'. split; [exact MM|]. split; [exact SO|]. intros j JJ. destruct (B j JJ) as [_ BJ].
  replace (1 / (11 - 1)) with (1/10) in BJ by lra. replace (8 / (5 - 1)) with 2 in BJ by lra.
  eapply Rle_trans; [exact BJ|]. assert (INR m <= 11) by (destruct MM as [-> | ->]; cbn [INR]; lra).
  change (bpow radix2 (-53)) with (/ 9007199254740992). lra.
Qed.
