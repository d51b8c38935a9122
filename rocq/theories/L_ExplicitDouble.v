(** Rounding errors of one explicit step, and of the clock of the time loop. *)
From Coq Require Import List ZArith Reals Lra Lia Bool Psatz.
From Flocq Require Import Core BinarySingleNaN Relative Plus_error.
From Verif Require Import M_Num S_Double S_Order S_ExplicitDouble L_B64 L_Order L_McRound L_Near.
Local Open Scope R_scope.

Lemma uu_val : uu = / 9007199254740992.
Proof. unfold uu. change (bpow radix2 (-52)) with (/ 4503599627370496). lra. Qed.

(** ** Relative errors of products and quotients *)
Definition tame (p : Z) (x : R) : Prop := x = 0 \/ bpow radix2 (- p) <= Rabs x <= bpow radix2 p.
Definition prel (k : R) (a : b64) (x : R) : Prop := finite a /\ Rabs (val a - x) <= k * uu * Rabs x.

Lemma tame_mul : forall p q x y, tame p x -> tame q y -> tame (p + q) (x * y).
Proof.
  intros p q x y [->|[A B]]; [intros _; left; ring|]. intros [->|[C D]]; [left; ring|]. right. rewrite Rabs_mult.
  replace (- (p + q))%Z with (- p + - q)%Z by ring. rewrite !bpow_plus.
  pose proof (bpow_gt_0 radix2 (- p)). pose proof (bpow_gt_0 radix2 (- q)). split; apply Rmult_le_compat; lra.
Qed.
Lemma tame_inv : forall p x, tame p x -> tame p (/ x).
Proof.
  intros p x [->|[A B]]; [left; apply Rinv_0|]. right. pose proof (bpow_gt_0 radix2 (- p)). pose proof (bpow_gt_0 radix2 p).
  assert (x <> 0). { intros ->. rewrite Rabs_R0 in A. lra. }
  rewrite Rabs_inv. split.
  - rewrite bpow_opp. apply Rinv_le; lra.
  - replace p with (- - p)%Z by ring. rewrite (bpow_opp radix2 (- p)). apply Rinv_le; lra.
Qed.
Lemma tame_div : forall p q x y, tame p x -> tame q y -> tame (p + q) (x / y).
Proof. intros. unfold Rdiv. apply tame_mul; [easy|now apply tame_inv]. Qed.
Lemma tame_weak : forall p q x, tame p x -> (p <= q)%Z -> tame q x.
Proof.
  intros p q x [E|[A B]] H; [now left|]. right. pose proof (bpow_le radix2 p q H). pose proof (bpow_le radix2 (- q) (- p) ltac:(lia)). lra.
Qed.
Lemma prel_self : forall a, finite a -> prel 0 a (val a).
Proof. intros a F. split; [exact F|]. rewrite Rminus_eq_0, Rabs_R0. lra. Qed.

(** A correctly rounded result near a number of moderate size. *)
Lemma prel_fl : forall z r x k k' p, notnan z -> val z = fl r -> Rabs (r - x) <= k * uu * Rabs x -> tame p x -> (p <= 1000)%Z ->
  0 <= k <= 30 -> k + 101/100 <= k' -> prel k' z x.
Proof.
  intros z r x k k' p NN V RX T P KB KK. pose proof uu_val as U.
  assert (X0 := Rabs_pos x).
  destruct T as [->|[A B]].
  { rewrite Rabs_R0, Rmult_0_r in RX. assert (r = 0) as ->. { apply Rabs_le_inv in RX. lra. }
    rewrite fl_0 in V. split; [|rewrite V, Rminus_eq_0, Rabs_R0; nra]. apply finite_of_val; [exact NN|]. rewrite V. pose proof INF_pos. lra. }
  assert (KU : 0 <= k * uu * Rabs x <= 30 * uu * Rabs x) by (rewrite U; split; nra).
  assert (RB : Rabs x * (99/100) <= Rabs r <= Rabs x * (1001/1000)).
  { pose proof (Rabs_triang x (r - x)) as Q1. replace (x + (r - x)) with r in Q1 by ring.
    pose proof (Rabs_triang r (x - r)) as Q2. replace (r + (x - r)) with x in Q2 by ring. rewrite (Rabs_minus_sym x r) in Q2. rewrite U in *. lra. }
  pose proof (bpow_le radix2 (-1000) (- p) ltac:(lia)) as L1. pose proof (bpow_le radix2 p 1000 ltac:(lia)) as L2.
  assert (C : Rabs (rnd r - r) <= uu * Rabs r).
  { apply (relative_error_N_FLT radix2 (-1074) 53 eq_refl (fun z => negb (Z.even z))).
    pose proof (bpow_le radix2 (-1074 + 53 - 1) (-1001) ltac:(lia)) as Q. assert (E : bpow radix2 (-1001) = bpow radix2 (-1000) / 2).
    { replace (-1001)%Z with (-1000 + -1)%Z by reflexivity. rewrite bpow_plus. change (bpow radix2 (-1)) with (/ 2). reflexivity. }
    pose proof (bpow_gt_0 radix2 (-1000)). lra. }
  assert (UB : uu * Rabs r <= uu * (Rabs x * (1001/1000))) by (apply Rmult_le_compat_l; rewrite ?U; lra).
  assert (BI : 2 * bpow radix2 1000 < INF).
  { change 2 with (bpow radix2 1). rewrite <- bpow_plus. apply bpow_lt. reflexivity. }
  assert (RR : - INF < rnd r < INF).
  { assert (Q : Rabs (rnd r) <= Rabs r + uu * Rabs r). { replace (rnd r) with (r + (rnd r - r)) by ring. eapply Rle_trans; [apply Rabs_triang|]. lra. }
    pose proof (bpow_gt_0 radix2 1000). pose proof (Rabs_pos r). apply Rabs_lt_inv. rewrite U in *. lra. }
  assert (W : val z = rnd r) by (rewrite V; unfold fl; apply clamp_id; lra).
  split; [apply finite_of_val; [easy|rewrite W; exact RR]|]. rewrite W.
  replace (rnd r - x) with ((rnd r - r) + (r - x)) by ring. eapply Rle_trans; [apply Rabs_triang|].
  assert (KX : (k + 101/100) * (uu * Rabs x) <= k' * (uu * Rabs x)) by (apply Rmult_le_compat_r; [rewrite U; lra|lra]).
  assert (0 <= uu * Rabs x) by (rewrite U; lra). lra.
Qed.
Lemma prel_mul : forall a b x y k l k' p, prel k a x -> prel l b y -> tame p (x * y) -> (p <= 1000)%Z -> 0 <= k <= 12 -> 0 <= l <= 12 -> k + l + 102/100 <= k' ->
  prel k' (b64_mul a b) (x * y).
Proof.
  intros a b x y k l k' p [FA EA] [FB EB] T P KB LB KK. destruct (val_mul a b FA FB) as [NN V]. pose proof uu_val as U.
  apply (prel_fl _ _ _ (k + l + 1/100) _ p NN V); auto; try lra.
  replace (val a * val b - x * y) with (x * (val b - y) + y * (val a - x) + (val a - x) * (val b - y)) by ring.
  eapply Rle_trans; [apply Rabs_triang|]. eapply Rle_trans; [apply Rplus_le_compat_r, Rabs_triang|]. rewrite !Rabs_mult.
  pose proof (Rabs_pos x) as X0. pose proof (Rabs_pos y) as Y0. pose proof (Rabs_pos (val a - x)). pose proof (Rabs_pos (val b - y)).
  assert (Q1 : Rabs x * Rabs (val b - y) <= Rabs x * (l * uu * Rabs y)) by (apply Rmult_le_compat_l; lra).
  assert (Q2 : Rabs y * Rabs (val a - x) <= Rabs y * (k * uu * Rabs x)) by (apply Rmult_le_compat_l; lra).
  assert (Q3 : Rabs (val a - x) * Rabs (val b - y) <= (k * uu * Rabs x) * (l * uu * Rabs y)) by (apply Rmult_le_compat; lra).
  assert (XY : 0 <= Rabs x * Rabs y) by (apply Rmult_le_pos; lra).
  assert (KL : k * l <= 144) by nra.
  assert (Q4 : (k * uu * Rabs x) * (l * uu * Rabs y) <= 1/100 * uu * (Rabs x * Rabs y)).
  { replace (k * uu * Rabs x * (l * uu * Rabs y)) with ((k * l * uu) * (uu * (Rabs x * Rabs y))) by ring.
    rewrite (Rmult_assoc (1/100)). apply Rmult_le_compat_r; [apply Rmult_le_pos; [rewrite U; lra|exact XY]|]. rewrite U. lra. }
  lra.
Qed.
Lemma prel_div_exact : forall a b x k k' p, prel k a x -> finite b -> val b <> 0 -> tame p (x / val b) -> (p <= 1000)%Z -> 0 <= k <= 12 -> k + 101/100 <= k' ->
  prel k' (b64_div a b) (x / val b).
Proof.
  intros a b x k k' p [FA EA] FB B0 T P KB KK. destruct (val_div a b FA FB B0) as [NN V].
  apply (prel_fl _ _ _ k _ p NN V); auto; try lra.
  replace (val a / val b - x / val b) with ((val a - x) / val b) by (field; exact B0). unfold Rdiv. rewrite !Rabs_mult.
  pose proof (Rabs_pos (/ val b)). replace (k * uu * (Rabs x * Rabs (/ val b))) with ((k * uu * Rabs x) * Rabs (/ val b)) by ring.
  apply Rmult_le_compat_r; lra.
Qed.
Lemma prel_sub_exact : forall a b p, finite a -> finite b -> tame p (val a - val b) -> (p <= 1000)%Z -> prel (101/100) (b64_sub a b) (val a - val b).
Proof.
  intros a b p FA FB T P. destruct (val_sub a b FA FB) as [NN V]. apply (prel_fl _ _ _ 0 _ p NN V); auto; try lra.
  rewrite Rminus_eq_0, Rabs_R0. lra.
Qed.

(** ** One step at an inner node *)
Lemma fl_unit : forall z r x e B e', notnan z -> val z = fl r -> Rabs (r - x) <= e -> Rabs x + e <= B -> 100 * eta0 <= uu * B -> B <= bpow radix2 1000 ->
  e + 102/100 * (uu * B) <= e' -> finite z /\ Rabs (val z - x) <= e'.
Proof.
  intros z r x e B e' NN V RX XB EB BB EE. pose proof uu_val as U.
  assert (RB : Rabs r <= B). { replace r with (x + (r - x)) by ring. eapply Rle_trans; [apply Rabs_triang|]. lra. }
  destruct (rnd_error r) as (d & n & HD & HN & Q).
  assert (C : Rabs (rnd r - r) <= 101/100 * (uu * B)).
  { rewrite Q. replace (r * (1 + d) + n - r) with (r * d + n) by ring. eapply Rle_trans; [apply Rabs_triang|]. rewrite Rabs_mult.
    assert (Rabs r * Rabs d <= B * uu) by (apply Rmult_le_compat; try apply Rabs_pos; lra). lra. }
  assert (B0 : 0 <= B) by (pose proof (Rabs_pos r); lra).
  assert (BI : 2 * bpow radix2 1000 < INF).
  { change 2 with (bpow radix2 1). rewrite <- bpow_plus. apply bpow_lt. reflexivity. }
  assert (RR : - INF < rnd r < INF).
  { assert (X : Rabs (rnd r) <= Rabs r + 101/100 * (uu * B)). { replace (rnd r) with (r + (rnd r - r)) by ring. eapply Rle_trans; [apply Rabs_triang|]. lra. }
    pose proof (bpow_gt_0 radix2 1000). apply Rabs_lt_inv. rewrite U in *. lra. }
  assert (W : val z = rnd r) by (rewrite V; unfold fl; apply clamp_id; lra).
  split; [apply finite_of_val; [easy|rewrite W; exact RR]|]. rewrite W.
  replace (rnd r - x) with ((rnd r - r) + (r - x)) by ring. eapply Rle_trans; [apply Rabs_triang|]. rewrite U in *. lra.
Qed.
Section Update.
Variables A B Q D ol om oh : b64.
Variables S a b q M : R.
Local Notation W := (uu * S).
Hypothesis FA : finite A. Hypothesis FB : finite B. Hypothesis FQ : finite Q. Hypothesis FD : finite D.
Hypothesis S0 : 0 < S. Hypothesis M0 : 0 < M.
Hypothesis SB : 2 * S <= bpow radix2 1000. Hypothesis SMB : 2 * (S * M) <= bpow radix2 1000. Hypothesis MB : 2 * M <= bpow radix2 1000.
Hypothesis E1 : 100 * eta0 <= uu * S. Hypothesis E2 : 100 * eta0 <= uu * (S * M). Hypothesis E3 : 100 * eta0 <= uu * M.
Hypothesis A0 : 0 <= a. Hypothesis BA : Rabs b <= a. Hypothesis Q0 : 0 <= q. Hypothesis AQ : 2 * a + q <= 1.
Hypothesis HA : Rabs (val A - a * S) <= 55/10 * W. Hypothesis HB : Rabs (val B - b * S) <= 55/10 * W.
Hypothesis HQ : Rabs (val Q + q * S) <= 8 * W. Hypothesis HD : Rabs (val D - S) <= 4 * W.
Hypothesis FL : finite ol. Hypothesis FM : finite om. Hypothesis FH : finite oh.
Hypothesis BL : Rabs (val ol) <= 101/100 * M. Hypothesis BM : Rabs (val om) <= 101/100 * M. Hypothesis BH : Rabs (val oh) <= 101/100 * M.

Lemma weights : 
  (finite (b64_sub A B) /\ Rabs (val (b64_sub A B) - (a - b) * S) <= 121/10 * W) /\
  (finite (b64_add A B) /\ Rabs (val (b64_add A B) - (a + b) * S) <= 121/10 * W) /\
  (finite (b64_add (b64_sub D (b64_mul (b64_ofZ 2) A)) Q) /\ Rabs (val (b64_add (b64_sub D (b64_mul (b64_ofZ 2) A)) Q) - (1 - 2 * a - q) * S) <= 264/10 * W).
Proof.
  pose proof uu_val as U. assert (W0 : 0 < W) by (rewrite U; lra). assert (W1 : W <= S / 1000000000) by (rewrite U; lra).
  assert (BW : 0 <= a * S /\ - (a * S) <= b * S <= a * S /\ 0 <= q * S /\ 2 * (a * S) + q * S <= S).
  { apply Rabs_le_inv in BA. repeat split; try nra. }
  destruct BW as (P1 & P2 & P3 & P4). clear E2 E3 SMB MB BL BM BH M0.
  assert (BND : forall x, - S <= x <= S -> Rabs x <= S) by (intros x X; apply Rabs_le; lra).
  apply Rabs_le_inv in HA, HB, HQ, HD.
  assert (UB : uu * (101/100 * S) = 101/100 * W) by ring.
  split; [|split].
  - destruct (val_sub A B FA FB) as [NN V]. apply (fl_unit _ _ _ (11 * W) (101/100 * S) _ NN V); [apply Rabs_le; lra|pose proof (BND ((a - b) * S) ltac:(lra)); lra| | |]; lra.
  - destruct (val_add A B FA FB) as [NN V]. apply (fl_unit _ _ _ (11 * W) (101/100 * S) _ NN V); [apply Rabs_le; lra|pose proof (BND ((a + b) * S) ltac:(lra)); lra| | |]; lra.
  - assert (V2 : val (b64_ofZ 2) = 2) by (vm_compute; lra).
    destruct (val_mul (b64_ofZ 2) A eq_refl FA) as [N2 W2]. rewrite V2 in W2.
    destruct (fl_unit _ _ (2 * (a * S)) (11 * W) (101/100 * S) (121/10 * W) N2 W2) as [F2 H2]; [apply Rabs_le; lra|pose proof (BND (2 * (a * S)) ltac:(lra)); lra|lra|lra|lra|].
    apply Rabs_le_inv in H2.
    destruct (val_sub D _ FD F2) as [N3 W3].
    destruct (fl_unit _ _ (S - 2 * (a * S)) (161/10 * W) (101/100 * S) (172/10 * W) N3 W3) as [F3 H3]; [apply Rabs_le; lra|pose proof (BND (S - 2 * (a * S)) ltac:(lra)); lra|lra|lra|lra|].
    apply Rabs_le_inv in H3.
    destruct (val_add _ Q F3 FQ) as [N4 W4].
    apply (fl_unit _ _ _ (252/10 * W) (101/100 * S) _ N4 W4); [apply Rabs_le; lra|pose proof (BND ((1 - 2 * a - q) * S) ltac:(lra)); lra| | |]; lra.
Qed.
(** A weight times an old value. *)
Lemma term : forall w o x c, finite w -> finite o -> Rabs (val w - x * S) <= c * W -> Rabs (val o) <= 101/100 * M -> 0 <= x <= 1 -> 0 <= c <= 27 ->
  finite (b64_mul w o) /\ Rabs (val (b64_mul w o) - x * val o * S) <= (101/100 * c + 104/100) * (uu * (S * M)).
Proof.
  intros w o x c FW FO HW BO X C. pose proof uu_val as U. destruct (val_mul w o FW FO) as [NN V].
  assert (SM0 : 0 < S * M) by (apply Rmult_lt_0_compat; lra).
  assert (CU : c * (uu * (S * M)) <= 27 * (uu * (S * M))) by (apply Rmult_le_compat_r; [rewrite U; lra|lra]).
  assert (T0 : 0 < uu * (S * M)) by (rewrite U; lra).
  assert (UB : uu * (1015/1000 * (S * M)) = 1015/1000 * (uu * (S * M))) by ring.
  apply (fl_unit _ _ _ (101/100 * c * (uu * (S * M))) (1015/1000 * (S * M)) _ NN V).
  - replace (val w * val o - x * val o * S) with ((val w - x * S) * val o) by ring. rewrite Rabs_mult.
    eapply Rle_trans; [apply Rmult_le_compat; [apply Rabs_pos|apply Rabs_pos|exact HW|exact BO]|]. right. ring.
  - rewrite !Rabs_mult, (Rabs_pos_eq x), (Rabs_pos_eq S) by lra. pose proof (Rabs_pos (val o)).
    assert (x * Rabs (val o) * S <= 1 * (101/100 * M) * S) by (apply Rmult_le_compat_r; [lra|]; apply Rmult_le_compat; lra).
    rewrite U in *. lra.
  - lra.
  - lra.
  - lra.
Qed.
Lemma update : 
  let al := b64_sub A B in let be := b64_add (b64_sub D (b64_mul (b64_ofZ 2) A)) Q in let ga := b64_add A B in
  let z := b64_div (b64_add (b64_add (b64_mul al ol) (b64_mul be om)) (b64_mul ga oh)) D in
  finite z /\ Rabs (val z - ((a - b) * val ol + (1 - 2 * a - q) * val om + (a + b) * val oh)) <= 63 * (uu * M).
Proof.
  intros al be ga z. pose proof uu_val as U. destruct weights as ((F1 & H1) & (F3 & H3) & (F2 & H2)).
  fold al in F1, H1. fold be in F2, H2. fold ga in F3, H3. apply Rabs_le_inv in BA.
  destruct (term al ol (a - b) (121/10) F1 FL H1 BL ltac:(lra) ltac:(lra)) as [G1 K1].
  destruct (term be om (1 - 2 * a - q) (264/10) F2 FM H2 BM ltac:(lra) ltac:(lra)) as [G2 K2].
  destruct (term ga oh (a + b) (121/10) F3 FH H3 BH ltac:(lra) ltac:(lra)) as [G3 K3].
  set (SM := S * M) in *. assert (SM0 : 0 < SM) by (apply Rmult_lt_0_compat; lra).
  set (x1 := (a - b) * val ol) in *. set (x2 := (1 - 2 * a - q) * val om) in *. set (x3 := (a + b) * val oh) in *.
  assert (X1 : Rabs x1 <= (a - b) * (101/100 * M)) by (unfold x1; rewrite Rabs_mult, Rabs_pos_eq by lra; apply Rmult_le_compat_l; lra).
  assert (X2 : Rabs x2 <= (1 - 2 * a - q) * (101/100 * M)) by (unfold x2; rewrite Rabs_mult, Rabs_pos_eq by lra; apply Rmult_le_compat_l; lra).
  assert (X3 : Rabs x3 <= (a + b) * (101/100 * M)) by (unfold x3; rewrite Rabs_mult, Rabs_pos_eq by lra; apply Rmult_le_compat_l; lra).
  assert (QM : 0 <= q * M) by (apply Rmult_le_pos; lra).
  assert (X3' : 0 <= (a + b) * M) by (apply Rmult_le_pos; lra).
  clearbody x1 x2 x3.
  assert (X12 : Rabs (x1 + x2) <= 101/100 * M) by (eapply Rle_trans; [apply Rabs_triang|]; lra).
  assert (X123 : Rabs (x1 + x2 + x3) <= 101/100 * M) by (eapply Rle_trans; [apply Rabs_triang|]; pose proof (Rabs_triang x1 x2); lra).
  assert (Y12 : Rabs ((x1 + x2) * S) <= 101/100 * SM) by (rewrite Rabs_mult, (Rabs_pos_eq S) by lra; unfold SM; nra).
  assert (Y123 : Rabs ((x1 + x2 + x3) * S) <= 101/100 * SM) by (rewrite Rabs_mult, (Rabs_pos_eq S) by lra; unfold SM; nra).
  assert (T0 : 0 < uu * SM <= SM / 1000000000) by (rewrite U; lra).
  assert (UB : uu * (1015/1000 * SM) = 1015/1000 * (uu * SM)) by ring.
  destruct (val_add _ _ G1 G2) as [N4 V4].
  destruct (fl_unit _ _ ((x1 + x2) * S) (411/10 * (uu * SM)) (1015/1000 * SM) (422/10 * (uu * SM)) N4 V4) as [G4 K4]; [|lra|lra|lra|lra|].
  { replace (val (b64_mul al ol) + val (b64_mul be om) - (x1 + x2) * S) with ((val (b64_mul al ol) - x1 * S) + (val (b64_mul be om) - x2 * S)) by ring.
    eapply Rle_trans; [apply Rabs_triang|]. lra. }
  destruct (val_add _ _ G4 G3) as [N5 V5].
  destruct (fl_unit _ _ ((x1 + x2 + x3) * S) (555/10 * (uu * SM)) (1015/1000 * SM) (566/10 * (uu * SM)) N5 V5) as [G5 K5]; [|lra|lra|lra|lra|].
  { match goal with |- Rabs (?p + ?r - _) <= _ => replace (p + r - (x1 + x2 + x3) * S) with ((p - (x1 + x2) * S) + (r - x3 * S)) by ring end.
    eapply Rle_trans; [apply Rabs_triang|]. lra. }
  set (num := b64_add (b64_add (b64_mul al ol) (b64_mul be om)) (b64_mul ga oh)) in *.
  assert (W0 : 0 < W <= S / 1000000000) by (rewrite U; lra).
  assert (DB : S * (999/1000) <= val D) by (apply Rabs_le_inv in HD; lra).
  destruct (val_div num D G5 FD ltac:(lra)) as [N6 V6]. fold z in N6, V6. set (x := x1 + x2 + x3) in *.
  assert (KEY : Rabs (val num / val D - x) <= 609/10 * (uu * M)).
  { replace (val num / val D - x) with (((val num - x * S) - x * (val D - S)) * / val D) by (field; lra). rewrite Rabs_mult, (Rabs_pos_eq (/ val D)) by (apply Rlt_le, Rinv_0_lt_compat; lra).
    apply Rmult_le_reg_r with (val D); [lra|]. rewrite Rmult_assoc, Rinv_l, Rmult_1_r by lra.
    assert (NB : Rabs (val num - x * S - x * (val D - S)) <= 607/10 * (uu * SM)).
    { unfold Rminus at 1. eapply Rle_trans; [apply Rabs_triang|]. rewrite Rabs_Ropp, Rabs_mult.
      assert (XD : Rabs x * Rabs (val D - S) <= 101/100 * M * (4 * W)) by (apply Rmult_le_compat; try apply Rabs_pos; lra).
      assert (XE : 101/100 * M * (4 * W) = 404/100 * (uu * SM)) by (unfold SM; field). lra. }
    assert (LO : 607/10 * (uu * SM) <= 609/10 * (uu * M) * (S * (999/1000))) by (unfold SM in *; nra).
    assert (609/10 * (uu * M) * (S * (999/1000)) <= 609/10 * (uu * M) * val D) by (apply Rmult_le_compat_l; [rewrite U; lra|exact DB]). lra. }
  apply (fl_unit _ _ _ (609/10 * (uu * M)) (1015/1000 * M) _ N6 V6); auto; rewrite U in *; lra.
Qed.
End Update.
