(** Rounding errors of the exponents and prices of a GBM path in binary64. *)
From Coq Require Import List ZArith Reals Lra Lia Bool Psatz.
From Flocq Require Import Core BinarySingleNaN.
From Verif Require Import M_Num S_Double S_Libm S_Model S_GbmDouble L_B64 L_Order L_McRound L_Near.
Import ListNotations.
Local Open Scope R_scope.

(** [x] is at most [M] in size and the double [a] is within [k] units [u0] of [M] of it, up to [h]. *)
Definition rel (a : b64) (x M k h : R) : Prop := finite a /\ Rabs x <= M /\ Rabs (val a - x) <= k * u0 * M + h.

Lemma rel_fl : forall z r x M k h k' h', notnan z -> val z = fl r -> Rabs x <= M -> Rabs (r - x) <= k * u0 * M + h ->
  M <= 10000000000 -> 0 <= k <= 100 -> 0 <= h <= 1 -> k + 101/100 <= k' -> 2 * h + e0 <= h' -> rel z x M k' h'.
Proof.
  intros z r x M k h k' h' NN V XM RX MB KB HB KK HH. pose proof (Rabs_pos x) as X0.
  assert (KM : 0 <= k * u0 * M <= M / 1000). { unfold u0. assert (0 <= k * M <= 100 * M) by (split; [apply Rmult_le_pos; lra|apply Rmult_le_compat_r; lra]). lra. }
  assert (RM : Rabs r <= M + (k * u0 * M + h)).
  { replace r with (x + (r - x)) by ring. eapply Rle_trans; [apply Rabs_triang|]. lra. }
  pose proof (rnd_close r _ RM) as C. pose proof big_INF as BI.
  assert (RR : - INF < rnd r < INF).
  { apply Rabs_le_inv in RM. apply Rabs_le_inv in C. unfold u0, e0 in *. lra. }
  assert (W : val z = rnd r) by (rewrite V; unfold fl; apply clamp_id; lra).
  split; [apply finite_of_val; [easy|rewrite W; exact RR]|]. split; [easy|]. rewrite W.
  replace (rnd r - x) with ((rnd r - r) + (r - x)) by ring. eapply Rle_trans; [apply Rabs_triang|].
  assert (Q : (k + 101/100) * (u0 * M) <= k' * (u0 * M)) by (apply Rmult_le_compat_r; [unfold u0; lra|lra]).
  assert ((M + (k * u0 * M + h)) * u0 <= 1001/1000 * (u0 * M) + h / 10); [|assert (0 <= u0 * M) by (unfold u0; lra); lra].
  { set (P := k * u0 * M) in *. clearbody P. unfold u0. lra. }
Qed.

Lemma rel_self : forall a M, finite a -> Rabs (val a) <= M -> rel a (val a) M 0 0.
Proof. intros a M F H. split; [easy|split; [easy|]]. rewrite Rminus_eq_0, Rabs_R0. lra. Qed.
Lemma rel_add : forall a b x y M N k l h g j f k' h', rel a x M k h -> rel b y N l g -> M <= 1000000000 -> N <= 1000000000 ->
  0 <= k <= j -> 0 <= l <= j -> j <= 100 -> 0 <= h -> 0 <= g -> h + g <= f -> f <= 1 -> j + 101/100 <= k' -> 2 * f + e0 <= h' -> rel (b64_add a b) (x + y) (M + N) k' h'.
Proof.
  intros a b x y M N k l h g j f k' h' (FA & XM & XE) (FB & YN & YF) MB NB KJ LJ JB H0 G0 HF F1 KK HH. destruct (val_add a b FA FB) as [NN V].
  pose proof (Rabs_pos x). pose proof (Rabs_pos y).
  apply (rel_fl _ _ _ _ j f _ _ NN V); [| |lra|lra|lra|exact KK|exact HH].
  - eapply Rle_trans; [apply Rabs_triang|]. lra.
  - replace (val a + val b - (x + y)) with ((val a - x) + (val b - y)) by ring. eapply Rle_trans; [apply Rabs_triang|].
    assert (k * (u0 * M) <= j * (u0 * M)) by (apply Rmult_le_compat_r; [unfold u0; lra|lra]).
    assert (l * (u0 * N) <= j * (u0 * N)) by (apply Rmult_le_compat_r; [unfold u0; lra|lra]). lra.
Qed.
Lemma rel_sub : forall a b x y M N k l h g j f k' h', rel a x M k h -> rel b y N l g -> M <= 1000000000 -> N <= 1000000000 ->
  0 <= k <= j -> 0 <= l <= j -> j <= 100 -> 0 <= h -> 0 <= g -> h + g <= f -> f <= 1 -> j + 101/100 <= k' -> 2 * f + e0 <= h' -> rel (b64_sub a b) (x - y) (M + N) k' h'.
Proof.
  intros a b x y M N k l h g j f k' h' (FA & XM & XE) (FB & YN & YF) MB NB KJ LJ JB H0 G0 HF F1 KK HH. destruct (val_sub a b FA FB) as [NN V].
  pose proof (Rabs_pos x). pose proof (Rabs_pos y).
  apply (rel_fl _ _ _ _ j f _ _ NN V); [| |lra|lra|lra|exact KK|exact HH].
  - unfold Rminus. eapply Rle_trans; [apply Rabs_triang|]. rewrite Rabs_Ropp. lra.
  - replace (val a - val b - (x - y)) with ((val a - x) + - (val b - y)) by ring. eapply Rle_trans; [apply Rabs_triang|]. rewrite Rabs_Ropp.
    assert (k * (u0 * M) <= j * (u0 * M)) by (apply Rmult_le_compat_r; [unfold u0; lra|lra]).
    assert (l * (u0 * N) <= j * (u0 * N)) by (apply Rmult_le_compat_r; [unfold u0; lra|lra]). lra.
Qed.
Lemma rel_mul : forall a b x y M N k l h g k' h', rel a x M k h -> rel b y N l g -> M <= 1000 -> N <= 1000 ->
  0 <= k <= 10 -> 0 <= l <= 10 -> 0 <= h <= 1/100000 -> 0 <= g <= 1/100000 -> k + l + 102/100 <= k' -> 5000 * (h + g) + e0 <= h' ->
  rel (b64_mul a b) (x * y) (M * N) k' h'.
Proof.
  intros a b x y M N k l h g k' h' (FA & XM & XE) (FB & YN & YF) MB NB KB LB HB GB KK HH. destruct (val_mul a b FA FB) as [NN V].
  pose proof (Rabs_pos x) as X0. pose proof (Rabs_pos y) as Y0. pose proof (Rabs_pos (val a - x)). pose proof (Rabs_pos (val b - y)).
  assert (MN : 0 <= M * N <= 1000000). { split; [apply Rmult_le_pos; lra|]. replace 1000000 with (1000 * 1000) by lra. apply Rmult_le_compat; lra. }
  apply (rel_fl _ _ _ _ (k + l + 1/100) (2001 * (h + g)) _ _ NN V); [| |lra|lra|lra|lra|lra].
  - rewrite Rabs_mult. apply Rmult_le_compat; easy.
  - replace (val a * val b - x * y) with (x * (val b - y) + y * (val a - x) + (val a - x) * (val b - y)) by ring.
    eapply Rle_trans; [apply Rabs_triang|]. eapply Rle_trans; [apply Rplus_le_compat_r, Rabs_triang|]. rewrite !Rabs_mult.
    assert (A1 : Rabs x * Rabs (val b - y) <= M * (l * u0 * N + g)) by (apply Rmult_le_compat; easy).
    assert (A2 : Rabs y * Rabs (val a - x) <= N * (k * u0 * M + h)) by (apply Rmult_le_compat; easy).
    assert (A3 : Rabs (val a - x) * Rabs (val b - y) <= (k * u0 * M + h) * (l * u0 * N + g)) by (apply Rmult_le_compat; easy).
    assert (KL : 0 <= k * l <= 100). { split; [apply Rmult_le_pos; lra|]. replace 100 with (10 * 10) by lra. apply Rmult_le_compat; lra. }
    assert (B1 : M * g <= 1000 * g) by (apply Rmult_le_compat_r; lra). assert (B2 : N * h <= 1000 * h) by (apply Rmult_le_compat_r; lra).
    assert (U : 0 < u0) by (unfold u0; lra).
    assert (B3 : k * u0 * M <= 1). { assert (k * M <= 10 * 1000) by (apply Rmult_le_compat; lra). unfold u0; lra. }
    assert (B4 : l * u0 * N <= 1). { assert (l * N <= 10 * 1000) by (apply Rmult_le_compat; lra). unfold u0; lra. }
    assert (C1 : k * u0 * M * g <= 1 * g) by (apply Rmult_le_compat_r; lra).
    assert (C2 : h * (l * u0 * N) <= h * 1) by (apply Rmult_le_compat_l; lra).
    assert (C3 : h * g <= h * (1/100000)) by (apply Rmult_le_compat_l; lra).
    assert (C4 : (k * l) * (u0 * u0 * (M * N)) <= 100 * (u0 * u0 * (M * N))).
    { apply Rmult_le_compat_r; [|lra]. apply Rmult_le_pos; [apply Rmult_le_pos; lra|lra]. }
    assert (C5 : 100 * (u0 * u0 * (M * N)) <= 1/100 * (u0 * (M * N))). { unfold u0. lra. }
    assert (EQ : (k * u0 * M + h) * (l * u0 * N + g) = (k * l) * (u0 * u0 * (M * N)) + k * u0 * M * g + h * (l * u0 * N) + h * g) by ring.
    rewrite EQ in A3. lra.
Qed.
Lemma rel_weak : forall a x M k h M' k' h', rel a x M k h -> M <= M' -> 0 <= k <= k' -> h <= h' -> rel a x M' k' h'.
Proof.
  intros a x M k h M' k' h' (F & A & B) HM HK HH. split; [easy|split; [lra|]]. pose proof (Rabs_pos x).
  assert (k * (u0 * M) <= k' * (u0 * M')); [|lra]. apply Rmult_le_compat; [lra| |lra|]; unfold u0; lra.
Qed.

(** ** Square root *)
Lemma val_sqrt : forall x, finite x -> 0 < val x -> finite (b64_sqrt x) /\ val (b64_sqrt x) = rnd (sqrt (val x)).
Proof.
  intros x F P. rewrite (val_finite x F) in *. destruct (Bsqrt_correct 53 1024 eq_refl eq_refl mode_NE x) as (A & B & _).
  assert (FS : finite (b64_sqrt x)).
  { unfold finite, b64_sqrt. etransitivity; [exact B|]. destruct x as [s|s| |[|] m e H]; try easy.
    exfalso. cbn in P. pose proof (F2R_lt_0 radix2 (Float radix2 (Z.neg m) e) ltac:(easy)). unfold F2R in *; cbn in *. lra. }
  split; [exact FS|]. rewrite (val_finite _ FS). exact A.
Qed.

(** The step of the time grid and its square root. *)
Lemma rel_dt : forall t n, finite t -> (1 <= n <= 2147483647)%Z -> 1/1000000000000 <= val t / IZR n <= 1000 ->
  rel (b64_div t (b64_ofZ n)) (val t / IZR n) (val t / IZR n) (101/100) e0 /\
  rel (b64_sqrt (b64_div t (b64_ofZ n))) (sqrt (val t / IZR n)) (sqrt (val t / IZR n)) (21/10) e0.
Proof.
  intros t n F N B. set (dt := val t / IZR n) in *.
  destruct (ofZ_fmt n ltac:(lia)) as [FN VN]. assert (NP : 1 <= IZR n) by (apply IZR_le; lia).
  destruct (val_div t _ F FN ltac:(rewrite VN; lra)) as [NN V]. rewrite VN in V. fold dt in V.
  assert (R : rel (b64_div t (b64_ofZ n)) dt dt (101/100) e0).
  { apply (rel_fl _ _ _ _ 0 0 _ _ NN V); try lra; [rewrite Rabs_pos_eq; lra|rewrite Rminus_eq_0, Rabs_R0; lra]. }
  split; [exact R|]. destruct R as (FD & _ & D). set (a := b64_div t (b64_ofZ n)) in *. clearbody a dt.
  assert (E : Rabs (val a - dt) <= 102/100 * u0 * dt) by (unfold u0, e0 in *; lra). apply Rabs_le_inv in E.
  assert (AP : 0 < val a) by (unfold u0 in *; lra). destruct (val_sqrt a FD AP) as [FS VS].
  assert (SP : 0 < sqrt dt) by (apply sqrt_lt_R0; lra). assert (SA : 0 < sqrt (val a)) by (apply sqrt_lt_R0; lra).
  assert (S1 : sqrt dt * sqrt dt = dt) by (apply sqrt_sqrt; lra). assert (S2 : sqrt (val a) * sqrt (val a) = val a) by (apply sqrt_sqrt; lra).
  assert (SB : sqrt dt <= 1000). { rewrite <- (sqrt_square 1000) by lra. apply sqrt_le_1; lra. }
  assert (X : Rabs (sqrt (val a) - sqrt dt) <= 103/100 * u0 * sqrt dt).
  { set (p := sqrt (val a)) in *. set (q := sqrt dt) in *. clearbody p q.
    assert (Y : (p - q) * (p + q) = val a - dt) by (rewrite <- S1, <- S2; ring).
    apply Rabs_le. assert (U : 0 < u0) by (unfold u0; lra).
    assert (Z : - (102/100 * u0 * q * q) <= (p - q) * (p + q) <= 102/100 * u0 * q * q).
    { rewrite Y. split; [|]; [replace (102/100 * u0 * q * q) with (102/100 * u0 * (q * q)) by ring|replace (102/100 * u0 * q * q) with (102/100 * u0 * (q * q)) by ring]; rewrite S1; lra. }
    assert (0 < q * u0) by (apply Rmult_lt_0_compat; lra).
    split; apply Rnot_lt_le; intros C; nra. }
  pose proof (finite_rnd (b64_sqrt a) (sqrt (val a)) FS) as _.
  split; [exact FS|]. split; [rewrite Rabs_pos_eq; lra|]. rewrite VS.
  assert (XM : Rabs (sqrt (val a)) <= 11/10 * sqrt dt).
  { replace (sqrt (val a)) with (sqrt dt + (sqrt (val a) - sqrt dt)) by ring. eapply Rle_trans; [apply Rabs_triang|]. rewrite (Rabs_pos_eq (sqrt dt)) by lra. unfold u0 in *; lra. }
  assert (XM' : Rabs (sqrt (val a)) <= 1001/1000 * sqrt dt).
  { replace (sqrt (val a)) with (sqrt dt + (sqrt (val a) - sqrt dt)) by ring. eapply Rle_trans; [apply Rabs_triang|]. rewrite (Rabs_pos_eq (sqrt dt)) by lra. unfold u0 in *; lra. }
  pose proof (rnd_close _ _ XM') as C. replace (rnd (sqrt (val a)) - sqrt dt) with ((rnd (sqrt (val a)) - sqrt (val a)) + (sqrt (val a) - sqrt dt)) by ring.
  eapply Rle_trans; [apply Rabs_triang|]. unfold u0 in *. lra.
Qed.

(** ** The exponent of a step *)
Section Step.
Variables (r c s t z : b64) (n : Z).
Hypothesis (Fr : finite r) (Fc : finite c) (Fs : finite s) (Ft : finite t) (Fz : finite z) (N : (1 <= n <= 2147483647)%Z).
Hypothesis (Br : Rabs (val r) <= 100) (Bc : Rabs (val c) <= 100) (Bs : 0 <= val s <= 10).
Hypothesis (Bt : 1/1000000000000 <= val t / IZR n <= 1000) (Bz : Rabs (val z) <= 100).
Let dt := val t / IZR n.

Lemma half_val : finite (b64_div (b64_ofZ 5) (b64_ofZ 10)) /\ val (b64_div (b64_ofZ 5) (b64_ofZ 10)) = 1 / 2.
Proof.
  destruct (ofZ_fmt 5 ltac:(lia)) as [F5 V5]. destruct (ofZ_fmt 10 ltac:(lia)) as [F10 V10].
  destruct (val_div _ _ F5 F10 ltac:(rewrite V10; lra)) as [NN V]. rewrite V5, V10 in V.
  assert (G : generic_format radix2 (FLT_exp (-1074) 53) (5 / 10)).
  { apply generic_format_FLT. exists (Float radix2 1 (-1)); [unfold F2R; cbn; lra|cbn; lia|cbn; lia]. }
  pose proof big_INF. assert (E : val (b64_div (b64_ofZ 5) (b64_ofZ 10)) = 1 / 2).
  { rewrite V. unfold fl, rnd. rewrite round_generic by (apply valid_rnd_N || exact G). rewrite clamp_id; lra. }
  split; [|exact E]. apply finite_of_val; [easy|]. rewrite E. lra.
Qed.

Definition exponent64 : b64 :=
  b64_add (b64_mul (b64_sub (b64_sub r c) (b64_mul (b64_mul (b64_div (b64_ofZ 5) (b64_ofZ 10)) s) s)) (b64_div t (b64_ofZ n)))
          (b64_mul (b64_mul s (b64_sqrt (b64_div t (b64_ofZ n)))) z).
Definition exponent : R := (val r - val c - val s * val s / 2) * dt + val s * sqrt dt * val z.

Lemma exponent_rel : rel exponent64 exponent (step_size (val r) (val c) (val s) dt (val z)) (62/10) (1/100000000000000000000).
Proof.
  destruct half_val as [FH VH]. destruct (rel_dt t n Ft N Bt) as [D Q]. fold dt in D, Q, Bt.
  assert (SB : 0 <= sqrt dt <= 100). { split; [apply sqrt_pos|]. rewrite <- (sqrt_square 100) by lra. apply sqrt_le_1; lra. }
  pose proof (Rabs_pos (val r)). pose proof (Rabs_pos (val c)). pose proof (Rabs_pos (val z)).
  assert (SS : 0 <= val s * val s <= 100). { split; [apply Rmult_le_pos; lra|]. replace 100 with (10 * 10) by lra. apply Rmult_le_compat; lra. }
  assert (S1 : 0 <= val s * sqrt dt <= 1000). { split; [apply Rmult_le_pos; lra|]. replace 1000 with (10 * 100) by lra. apply Rmult_le_compat; lra. }
  assert (S2 : val s * sqrt dt * Rabs (val z) <= 100000). { replace 100000 with (1000 * 100) by lra. apply Rmult_le_compat; lra. }
  assert (S3 : (Rabs (val r) + Rabs (val c) + val s * val s / 2) * dt <= 250 * 1000) by (apply Rmult_le_compat; lra).
  pose proof (rel_self r _ Fr (Rle_refl _)) as R1. pose proof (rel_self c _ Fc (Rle_refl _)) as R2.
  pose proof (rel_self s (val s) Fs ltac:(rewrite Rabs_pos_eq; lra)) as R3. pose proof (rel_self z _ Fz (Rle_refl _)) as R4.
  pose proof (rel_self _ (1/2) FH ltac:(rewrite VH, Rabs_pos_eq; lra)) as R5. rewrite VH in R5.
  assert (E0 : e0 = 1/1000000000000000000000000000000) by reflexivity.
  assert (R6 : rel (b64_sub r c) (val r - val c) (Rabs (val r) + Rabs (val c)) (102/100) (2 * e0)).
  { apply (rel_sub _ _ _ _ _ _ 0 0 0 0 0 0 _ _ R1 R2); rewrite ?E0; lra. }
  assert (R7 : rel (b64_mul (b64_div (b64_ofZ 5) (b64_ofZ 10)) s) (1 / 2 * val s) (1 / 2 * val s) (102/100) e0).
  { apply (rel_mul _ _ _ _ _ _ 0 0 0 0 _ _ R5 R3); rewrite ?E0; lra. }
  assert (R8 : rel (b64_mul (b64_mul (b64_div (b64_ofZ 5) (b64_ofZ 10)) s) s) (1 / 2 * val s * val s) (1 / 2 * val s * val s) (204/100) (5001 * e0)).
  { apply (rel_mul _ _ _ _ _ _ (102/100) 0 e0 0 _ _ R7 R3); rewrite ?E0; lra. }
  assert (R9 := rel_sub _ _ _ _ _ _ _ _ _ _ (204/100) (5003 * e0) (305/100) (10007 * e0) R6 R8 ltac:(lra) ltac:(lra) ltac:(lra) ltac:(lra) ltac:(lra)
    ltac:(rewrite ?E0; lra) ltac:(rewrite ?E0; lra) ltac:(rewrite ?E0; lra) ltac:(rewrite ?E0; lra) ltac:(lra) ltac:(rewrite ?E0; lra)).
  assert (R10 := rel_mul _ _ _ _ _ _ _ _ _ _ (508/100) (60000000 * e0) R9 D ltac:(lra) ltac:(lra) ltac:(lra) ltac:(lra) ltac:(rewrite ?E0; lra) ltac:(rewrite ?E0; lra) ltac:(lra) ltac:(rewrite ?E0; lra)).
  assert (R11 := rel_mul _ _ _ _ _ _ _ _ _ _ (312/100) (5001 * e0) R3 Q ltac:(lra) ltac:(lra) ltac:(lra) ltac:(lra) ltac:(rewrite ?E0; lra) ltac:(rewrite ?E0; lra) ltac:(lra) ltac:(rewrite ?E0; lra)).
  assert (R12 := rel_mul _ _ _ _ _ _ _ _ _ _ (414/100) (26000000 * e0) R11 R4 ltac:(lra) ltac:(lra) ltac:(lra) ltac:(lra) ltac:(rewrite ?E0; lra) ltac:(rewrite ?E0; lra) ltac:(lra) ltac:(rewrite ?E0; lra)).
  assert (R13 := rel_add _ _ _ _ _ _ _ _ _ _ (508/100) (86000000 * e0) (62/10) (1/100000000000000000000) R10 R12 ltac:(lra) ltac:(lra) ltac:(lra) ltac:(lra) ltac:(lra)
    ltac:(rewrite ?E0; lra) ltac:(rewrite ?E0; lra) ltac:(rewrite ?E0; lra) ltac:(rewrite ?E0; lra) ltac:(lra) ltac:(rewrite ?E0; lra)).
  unfold exponent, exponent64, step_size.
  replace (val s * val s / 2) with (1 / 2 * val s * val s) by field. exact R13.
Qed.
End Step.

(** ** Factors *)
Lemma within_close : forall d x y L, 0 < y -> 0 <= d <= 1/10 -> Rabs (x - y) <= d * y -> d <= L * (1 - d) -> within L x y.
Proof.
  intros d x y L Y D E H. apply Rabs_le_inv in E. assert (0 <= L) by nra. pose proof (exp_ineq1_le L) as E1. pose proof (exp_pos L). pose proof (exp_pos (- L)) as P.
  assert (E2 : exp (- L) * exp L = 1) by (rewrite <- exp_plus, Rplus_opp_l; apply exp_0).
  assert (E3 : exp (- L) <= 1 - d). { apply (Rmult_le_reg_r (exp L)); [easy|]. rewrite E2. nra. }
  unfold within. split; nra.
Qed.
Lemma within_trans : forall L L' x y z, 0 < z -> within L x y -> within L' y z -> within (L + L') x z.
Proof.
  intros L L' x y z Z [A B] [C D]. unfold within. rewrite Ropp_plus_distr, !exp_plus. pose proof (exp_pos L). pose proof (exp_pos (- L)). split; nra.
Qed.
Lemma within_weak : forall L L' x y, 0 < y -> L <= L' -> within L x y -> within L' x y.
Proof.
  intros L L' x y Y H [A B]. assert (exp L <= exp L') by (destruct H as [H| ->]; [left; now apply exp_increasing|lra]).
  assert (exp (- L') <= exp (- L)) by (destruct H as [H| ->]; [left; apply exp_increasing; lra|lra]). unfold within. split; nra.
Qed.
Lemma within_exp : forall L x y, Rabs (x - y) <= L -> within L (exp x) (exp y).
Proof.
  intros L x y H. apply Rabs_le_inv in H. unfold within. rewrite <- !exp_plus.
  assert (M : forall a b, a <= b -> exp a <= exp b) by (intros a b [Q| ->]; [left; now apply exp_increasing|lra]). split; apply M; lra.
Qed.
Lemma within_mult : forall L L' x y x' y', 0 < y -> 0 < y' -> within L x y -> within L' x' y' -> within (L + L') (x * x') (y * y').
Proof.
  intros L L' x y x' y' Y Y' [A B] [C D]. unfold within. rewrite Ropp_plus_distr, !exp_plus.
  pose proof (exp_pos L). pose proof (exp_pos (- L)). pose proof (exp_pos L'). pose proof (exp_pos (- L')).
  assert (0 < y * exp (- L)) by now apply Rmult_lt_0_compat. assert (0 < y' * exp (- L')) by now apply Rmult_lt_0_compat.
  split; [replace (y * y' * (exp (- L) * exp (- L'))) with ((y * exp (- L)) * (y' * exp (- L'))) by ring|
          replace (y * y' * (exp L * exp L')) with ((y * exp L) * (y' * exp L')) by ring]; apply Rmult_le_compat; lra.
Qed.
Lemma within_pos : forall L x y, 0 < y -> within L x y -> 0 < x.
Proof. intros L x y Y [A _]. pose proof (exp_pos (- L)). nra. Qed.

(** exp(-602) against the smallest positive double *)
Lemma exp_nat_le : forall k, exp (INR k) <= 4 ^ k.
Proof.
  induction k as [|k IH]; [cbn; rewrite exp_0; lra|]. rewrite S_INR, exp_plus. cbn [pow]. pose proof exp_le_3. pose proof (exp_pos (INR k)). pose proof (exp_pos 1). nra.
Qed.
Lemma exp_Z_bpow : forall k, (0 <= k)%Z -> exp (IZR k) <= bpow radix2 (2 * k).
Proof.
  intros k K. rewrite <- (Z2Nat.id k K). rewrite <- INR_IZR_INZ. eapply Rle_trans; [apply exp_nat_le|].
  replace (2 * Z.of_nat (Z.to_nat k))%Z with (Z.of_nat (Z.to_nat k) + Z.of_nat (Z.to_nat k))%Z by lia. rewrite bpow_plus.
  rewrite !bpow_powerRZ, <- !pow_powerRZ. rewrite <- Rpow_mult_distr. right. f_equal.
Qed.
Lemma exp_low : bpow radix2 (-900) <= exp (- 400).
Proof.
  pose proof (exp_Z_bpow 400 ltac:(lia)) as H. change (2 * 400)%Z with 800%Z in H.
  assert (E : exp (- 400) * exp 400 = 1) by (rewrite <- exp_plus; replace (- 400 + 400) with 0 by lra; apply exp_0).
  assert (B : bpow radix2 (-800) * bpow radix2 800 = 1) by (rewrite <- bpow_plus; reflexivity).
  pose proof (exp_pos (- 400)). pose proof (exp_pos 400). pose proof (bpow_gt_0 radix2 (-800)).
  pose proof (bpow_le radix2 (-900) (-800) ltac:(lia)). nra.
Qed.
Lemma exp_high : exp 500 <= bpow radix2 1000.
Proof. exact (exp_Z_bpow 500 ltac:(lia)). Qed.
Lemma eta_low : eta0 <= e0 * exp (- 400).
Proof.
  pose proof exp_low as H. unfold eta0, e0.
  assert (B : bpow radix2 (-1074) = bpow radix2 (-174) * bpow radix2 (-900)) by (rewrite <- bpow_plus; reflexivity).
  pose proof (bpow_gt_0 radix2 (-900)). assert (C : bpow radix2 (-174) <= 1/1000000000000000000000000000000).
  { pose proof (bpow_le radix2 (-174) (-100) ltac:(lia)) as Q. change (bpow radix2 (-100)) with (/ 1267650600228229401496703205376) in Q. lra. }
  pose proof (bpow_gt_0 radix2 (-174)). rewrite B. nra.
Qed.

(** A rounded result in the middle of the range. *)
Lemma rnd_within : forall z r, notnan z -> val z = fl r -> exp (- 400) <= r <= exp 500 ->
  finite z /\ within (121/1000000000000000000) (val z) r.
Proof.
  intros z r NN V [R0 R1]. destruct (rnd_error r) as (e & n & E & M & Q).
  pose proof uu_u0. pose proof eta_low as T. pose proof (exp_pos (- 400)). apply Rabs_le_inv in E. apply Rabs_le_inv in M.
  assert (U : uu <= u0) by apply uu_u0. assert (TR : e0 * exp (- 400) <= e0 * r) by (apply Rmult_le_compat_l; [unfold e0; lra|lra]).
  assert (C : Rabs (rnd r - r) <= 1205/10000000000000000000 * r).
  { rewrite Q. apply Rabs_le. assert (- (u0 * r) <= r * e <= u0 * r) by (split; nra). unfold u0, e0 in *. split; lra. }
  apply Rabs_le_inv in C.
  assert (B : bpow radix2 1000 * 2 <= INF). { unfold INF. pose proof (bpow_le radix2 1001 1024 ltac:(lia)) as Q2. replace (bpow radix2 1001) with (bpow radix2 1000 * 2) in Q2; [exact Q2|]. change 2 with (bpow radix2 1). rewrite <- bpow_plus. reflexivity. }
  pose proof exp_high. assert (W : val z = rnd r) by (rewrite V; unfold fl; apply clamp_id; lra).
  split; [apply finite_of_val; [easy|rewrite W; lra]|]. rewrite W. apply (within_close (1205/10000000000000000000)); [lra|lra|apply Rabs_le; lra|lra].
Qed.

(** ** One step of a path *)
Notation midrange := ordinary_price (only parsing).
Lemma exp_mono : forall a b, a <= b -> exp a <= exp b.
Proof. intros a b [Q| ->]; [left; now apply exp_increasing|lra]. Qed.
Lemma midrange_within : forall L x y, L <= 2 -> midrange y -> within L x y -> exp (- 400) <= x <= exp 500.
Proof.
  intros L x y HL [A B] [C D]. pose proof (exp_pos (- 200)) as P. pose proof (exp_pos L) as PL. pose proof (exp_pos (- L)) as PM.
  split; [apply Rle_trans with (exp (- 200) * exp (- L))|apply Rle_trans with (exp 200 * exp L)].
  - rewrite <- exp_plus. apply exp_mono. lra.
  - eapply Rle_trans; [|exact C]. apply Rmult_le_compat_r; lra.
  - eapply Rle_trans; [exact D|]. apply Rmult_le_compat_r; lra.
  - rewrite <- exp_plus. apply exp_mono. lra.
Qed.
Lemma step_within : forall fexp S e s x h L, accurate_exp fexp -> finite S -> within L (val S) s -> 0 <= L <= 1 -> midrange s -> midrange (s * exp x) ->
  rel e x h (62/10) (1/100000000000000000000) -> h <= 300 ->
  finite (b64_mul S (fexp e)) /\ within (L + 12/10000000000000000 * (1 + h)) (val (b64_mul S (fexp e))) (s * exp x).
Proof.
  intros fexp S e s x h L AE FS WS LB RS RX (FE & XH & XE) HB. pose proof (Rabs_pos x) as X0.
  assert (SP : 0 < s) by (destruct RS; pose proof (exp_pos (- 200)); lra). pose proof (exp_pos x) as EP. pose proof (exp_pos (val e)) as EP'.
  assert (EB : Rabs (val e) <= 700).
  { replace (val e) with (x + (val e - x)) by ring. eapply Rle_trans; [apply Rabs_triang|]. unfold u0 in XE. lra. }
  destruct (AE e FE EB) as [FF AF].
  assert (W1 : within (1001/1000000000000000000) (val (fexp e)) (exp (val e))).
  { apply (within_close (1/1000000000000000)); lra. }
  pose proof (within_exp _ _ _ XE) as W2. pose proof (within_trans _ _ _ _ _ EP W1 W2) as W3.
  pose proof (within_mult _ _ _ _ _ _ SP EP WS W3) as W4.
  assert (SE : 0 < s * exp x) by now apply Rmult_lt_0_compat.
  destruct (val_mul S (fexp e) FS FF) as [NN V].
  destruct (rnd_within _ _ NN V) as [FR WR].
  { refine (midrange_within _ _ _ _ RX W4). unfold u0. lra. }
  split; [exact FR|]. eapply within_weak; [exact SE| |exact (within_trans _ _ _ _ _ SE WR W4)]. unfold u0. lra.
Qed.

(** ** A path *)
Fixpoint scan {A B} (f : A -> B -> A) (s : A) (l : list B) : list A :=
  match l with [] => [] | z :: l => f s z :: scan f (f s z) l end.
(** The bound after each step. *)
Lemma path_within : forall fexp (F : b64 -> b64) (x h : b64 -> R) zs S s L, accurate_exp fexp ->
  Forall (fun z => rel (F z) (x z) (h z) (62/10) (1/100000000000000000000) /\ h z <= 300) zs ->
  finite S -> within L (val S) s -> 0 <= L -> midrange s -> L + 12/10000000000000000 * Rsum (map (fun z => 1 + h z) zs) <= 1 ->
  Forall midrange (scan (fun s z => s * exp (x z)) s zs) ->
  forall k, (k < length zs)%nat -> exists a, nth_error (scan (fun S z => b64_mul S (fexp (F z))) S zs) k = Some a /\ finite a /\
    exists y, nth_error (scan (fun s z => s * exp (x z)) s zs) k = Some y /\ within (L + 12/10000000000000000 * Rsum (map (fun z => 1 + h z) (firstn (Datatypes.S k) zs))) (val a) y.
Proof.
  intros fexp F x h zs. induction zs as [|z zs IH]; intros S s L AE FZ FS W L0 MS LB FM k K; [cbn in K; lia|].
  inversion FZ as [|? ? [RZ HZ] FZ']; subst. cbn [scan] in FM. inversion FM as [|? ? M1 FM']; subst. cbn [map Rsum fold_right] in LB. fold (Rsum (map (fun z => 1 + h z) zs)) in LB.
  assert (HP : forall z, rel (F z) (x z) (h z) (62/10) (1/100000000000000000000) -> 0 <= h z) by (intros q (_ & Q & _); pose proof (Rabs_pos (x q)); lra).
  assert (RP : 0 <= Rsum (map (fun z => 1 + h z) zs)).
  { clear - FZ' HP. induction FZ' as [|q l [Q _] _ IH]; cbn; [lra|]. fold (Rsum (map (fun z => 1 + h z) l)). specialize (HP q Q). lra. }
  pose proof (HP z RZ) as H0. destruct (step_within fexp S (F z) s (x z) (h z) L AE FS W ltac:(lra) MS M1 RZ HZ) as [FA WA].
  destruct k as [|k]; cbn [scan nth_error].
  - eexists. split; [reflexivity|]. split; [exact FA|]. eexists. split; [reflexivity|]. cbn [firstn map Rsum fold_right]. rewrite Rplus_0_r. exact WA.
  - destruct (IH _ _ (L + 12/10000000000000000 * (1 + h z)) AE FZ' FA WA ltac:(lra) M1 ltac:(lra) FM' k ltac:(cbn in K; lia)) as (a & E & FF & y & EY & WY).
    exists a. split; [exact E|]. split; [exact FF|]. exists y. split; [exact EY|].
    change (firstn (Datatypes.S (Datatypes.S k)) (z :: zs)) with (z :: firstn (Datatypes.S k) zs). cbn [map Rsum fold_right]. fold (Rsum (map (fun z => 1 + h z) (firstn (Datatypes.S k) zs))).
    replace (L + 12/10000000000000000 * (1 + h z + Rsum (map (fun z => 1 + h z) (firstn (Datatypes.S k) zs)))) with
      (L + 12/10000000000000000 * (1 + h z) + 12/10000000000000000 * Rsum (map (fun z => 1 + h z) (firstn (Datatypes.S k) zs))) by ring. exact WY.
Qed.
Lemma scan_length : forall {A B} (f : A -> B -> A) l s, length (scan f s l) = length l.
Proof. induction l as [|z l IH]; intros s; cbn; [easy|]. now rewrite IH. Qed.
(** The exact path is the closed-form solution. *)
Lemma scan_exp : forall (f : R -> R) zs s, scan (fun s z => s * exp (f z)) s zs =
  map (fun k => s * exp (Rsum (map f (firstn k zs)))) (seq 1 (length zs)).
Proof.
  intros f. induction zs as [|z zs IH]; intros s; [easy|]. cbn [scan length seq map]. f_equal.
  - cbn. rewrite Rplus_0_r. reflexivity.
  - rewrite IH. rewrite <- (seq_shift (length zs) 1), map_map. apply map_ext. intros k.
    cbn [firstn map Rsum fold_right]. fold (Rsum (map f (firstn k zs))). rewrite exp_plus. ring.
Qed.
Lemma scan_solution : forall S0 r c sigma dt zs,
  scan (fun s z => s * exp ((r - c - sigma * sigma / 2) * dt + sigma * sqrt dt * z)) S0 zs = gbm_solution S0 r c sigma dt zs.
Proof.
  intros. rewrite (scan_exp (fun z => (r - c - sigma * sigma / 2) * dt + sigma * sqrt dt * z)). unfold gbm_solution. apply map_ext_in. intros k K. apply in_seq in K.
  f_equal. f_equal. transitivity ((r - c - sigma * sigma / 2) * dt * INR (length (firstn k zs)) + sigma * sqrt dt * Rsum (firstn k zs)); [|rewrite firstn_length, Nat.min_l by lia; ring].
  generalize (firstn k zs) as l. induction l as [|z l IH]; [cbn; lra|]. cbn [map Rsum fold_right length]. fold (Rsum l). fold (Rsum (map (fun z => (r - c - sigma * sigma / 2) * dt + sigma * sqrt dt * z) l)). rewrite IH, S_INR. ring.
Qed.
Lemma scan_map : forall {A B C} (f : A -> C -> A) (g : B -> C) l s, scan (fun s z => f s (g z)) s l = scan f s (map g l).
Proof. induction l as [|z l IH]; intros s; cbn; [easy|]. now rewrite IH. Qed.
