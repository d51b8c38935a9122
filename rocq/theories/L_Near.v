(** Running error bounds of binary64 expressions: a double [a] near a real number [x]. *)
From Coq Require Import ZArith Reals Lra Lia Bool Psatz.
From Flocq Require Import Core BinarySingleNaN Sterbenz.
From Verif Require Import M_Num S_Double L_B64 L_Order L_McRound.
Local Open Scope R_scope.

(** [x] is at most [M] in size and the double [a] is within [e] of it. *)
Definition near (a : b64) (x M e : R) : Prop := finite a /\ Rabs x <= M /\ Rabs (val a - x) <= e.

Definition u0 : R := 12/100000000000000000.
Definition e0 : R := 1/1000000000000000000000000000000.
Lemma uu_u0 : uu <= u0.
Proof. unfold uu, u0. change (bpow radix2 (-52)) with (/ 4503599627370496). lra. Qed.
Lemma eta0_e0 : eta0 <= e0.
Proof.
  unfold eta0, e0. pose proof (bpow_le radix2 (-1074) (-100) ltac:(lia)) as H.
  change (bpow radix2 (-100)) with (/ 1267650600228229401496703205376) in H. lra.
Qed.
Lemma big_INF : 1000000000000000000000000000000 <= INF.
Proof.
  unfold INF. pose proof (bpow_le radix2 100 1024 ltac:(lia)) as H.
  change (bpow radix2 100) with 1267650600228229401496703205376 in H. lra.
Qed.

Lemma rnd_close : forall r M, Rabs r <= M -> Rabs (rnd r - r) <= M * u0 + e0.
Proof.
  intros r M RM. destruct (rnd_error r) as (e & n & E & N & ->). replace (r * (1 + e) + n - r) with (r * e + n) by ring.
  eapply Rle_trans; [apply Rabs_triang|]. rewrite Rabs_mult. pose proof uu_u0. pose proof eta0_e0. pose proof (Rabs_pos r). pose proof (Rabs_pos e). nra.
Qed.
Lemma finite_of_val : forall z, notnan z -> - INF < val z < INF -> finite z.
Proof.
  intros z NN V. destruct (notnan_cases _ NN) as [F|[I|I]]; [exact F| |]; rewrite I in V; [rewrite val_ninf in V|rewrite val_pinf in V]; lra.
Qed.
(** A correctly rounded result near the exact one. *)
Lemma near_fl : forall z r x M e e', notnan z -> val z = fl r -> Rabs x <= M -> Rabs (r - x) <= e ->
  M + e <= 1000000000000000000000 -> e + (M + e) * u0 + e0 <= e' -> near z x M e'.
Proof.
  intros z r x M e e' NN V XM RX B E. assert (RM : Rabs r <= M + e).
  { replace r with (x + (r - x)) by ring. eapply Rle_trans; [apply Rabs_triang|]. lra. }
  pose proof (rnd_close r (M + e) RM) as C. pose proof big_INF as BI.
  assert (RR : - INF < rnd r < INF).
  { apply Rabs_le_inv in RM. apply Rabs_le_inv in C. unfold u0, e0 in *. lra. }
  assert (W : val z = rnd r) by (rewrite V; unfold fl; apply clamp_id; lra).
  split; [apply finite_of_val; [easy|rewrite W; exact RR]|]. split; [easy|]. rewrite W.
  replace (rnd r - x) with ((rnd r - r) + (r - x)) by ring. eapply Rle_trans; [apply Rabs_triang|]. lra.
Qed.

Lemma near_weak : forall a x M e M' e', near a x M e -> M <= M' -> e <= e' -> near a x M' e'.
Proof. intros a x M e M' e' (F & A & B) HM HE. split; [easy|split; lra]. Qed.
Lemma near_self : forall a M, finite a -> Rabs (val a) <= M -> near a (val a) M 0.
Proof. intros a M F H. split; [easy|split; [easy|]]. rewrite Rminus_eq_0, Rabs_R0. lra. Qed.

Lemma near_add : forall a b x y M N e f K e', near a x M e -> near b y N f -> M + N <= K ->
  K + (e + f) <= 1000000000000000000000 -> (e + f) + (K + (e + f)) * u0 + e0 <= e' -> near (b64_add a b) (x + y) K e'.
Proof.
  intros a b x y M N e f K e' (FA & XM & XE) (FB & YN & YF) MK B E. destruct (val_add a b FA FB) as [NN V].
  apply (near_fl _ _ _ _ (e + f) _ NN V); [|  |exact B|exact E].
  - eapply Rle_trans; [apply Rabs_triang|]. lra.
  - replace (val a + val b - (x + y)) with ((val a - x) + (val b - y)) by ring. eapply Rle_trans; [apply Rabs_triang|]. lra.
Qed.
Lemma near_mul : forall a b x y M N e f K e1 e', near a x M e -> near b y N f -> M * N <= K -> M * f + N * e + e * f <= e1 ->
  K + e1 <= 1000000000000000000000 -> e1 + (K + e1) * u0 + e0 <= e' -> near (b64_mul a b) (x * y) K e'.
Proof.
  intros a b x y M N e f K e1 e' (FA & XM & XE) (FB & YN & YF) MK E1 B E. destruct (val_mul a b FA FB) as [NN V].
  pose proof (Rabs_pos x). pose proof (Rabs_pos y). pose proof (Rabs_pos (val a - x)). pose proof (Rabs_pos (val b - y)).
  apply (near_fl _ _ _ _ e1 _ NN V); [|  |exact B|exact E].
  - rewrite Rabs_mult. eapply Rle_trans; [apply Rmult_le_compat; eassumption|]. exact MK.
  - replace (val a * val b - x * y) with (x * (val b - y) + y * (val a - x) + (val a - x) * (val b - y)) by ring.
    eapply Rle_trans; [apply Rabs_triang|]. eapply Rle_trans; [apply Rplus_le_compat_r, Rabs_triang|]. rewrite !Rabs_mult.
    eapply Rle_trans; [|exact E1]. apply Rplus_le_compat; [apply Rplus_le_compat|]; apply Rmult_le_compat; easy.
Qed.
(** Quotient by a number whose size is at least [L]. *)
Lemma near_div : forall a b x y M N e f L K e1 e', near a x M e -> near b y N f -> L <= Rabs y -> f < L ->
  M <= K * L -> e * L + M * f <= e1 * ((L - f) * L) ->
  K + e1 <= 1000000000000000000000 -> e1 + (K + e1) * u0 + e0 <= e' -> near (b64_div a b) (x / y) K e'.
Proof.
  intros a b x y M N e f L K e1 e' (FA & XM & XE) (FB & YN & YF) LY FL MK E1 B E.
  pose proof (Rabs_pos x) as X0. pose proof (Rabs_pos (val a - x)) as A0. pose proof (Rabs_pos (val b - y)) as B0.
  assert (L0 : 0 < L) by lra. assert (YN0 : y <> 0) by (intros ->; rewrite Rabs_R0 in LY; lra).
  assert (BL : L - f <= Rabs (val b)).
  { replace (val b) with (y - (y - val b)) by ring. eapply Rle_trans; [|apply Rabs_triang_inv]. rewrite (Rabs_minus_sym y). lra. }
  assert (BN0 : val b <> 0) by (intros Z; rewrite Z, Rabs_R0 in BL; lra).
  destruct (val_div a b FA FB BN0) as [NN V]. apply (near_fl _ _ _ _ e1 _ NN V); [|  |exact B|exact E].
  - unfold Rdiv; rewrite Rabs_mult, Rabs_inv. fold (Rabs x / Rabs y). apply (Rmult_le_reg_r (Rabs y)); [lra|]. replace (Rabs x / Rabs y * Rabs y) with (Rabs x) by (field; lra).
    assert (0 <= K) by nra. nra.
  - assert (Q : (val a / val b - x / y) * (val b * y) = (val a - x) * y + x * (y - val b)) by (field; easy).
    assert (P : Rabs (val a / val b - x / y) * (Rabs (val b) * Rabs y) <= e * Rabs y + M * f).
    { rewrite <- !Rabs_mult, Q. eapply Rle_trans; [apply Rabs_triang|]. rewrite !Rabs_mult, (Rabs_minus_sym y).
      apply Rplus_le_compat; [apply Rmult_le_compat_r; [apply Rabs_pos|easy]|apply Rmult_le_compat; easy || apply Rabs_pos]. }
    set (d := Rabs (val a / val b - x / y)) in *. assert (D0 : 0 <= d) by apply Rabs_pos. clearbody d. set (w := Rabs y) in *.
    apply Rnot_lt_le. intros D.
    assert (P' : d * ((L - f) * w) <= e * w + M * f).
    { eapply Rle_trans; [|exact P]. apply Rmult_le_compat_l; [easy|]. apply Rmult_le_compat_r; lra. }
    assert (e1 * ((L - f) * L) < d * ((L - f) * L)) by (apply Rmult_lt_compat_r; [apply Rmult_lt_0_compat; lra|exact D]).
    assert (M0 : 0 <= M * f) by (apply Rmult_le_pos; lra).
    assert (d * ((L - f) * w) - e * w >= (w / L) * (M * f) + 0).
    { assert (T : d * ((L - f) * L) - e * L >= M * f) by lra.
      assert (W : 0 < w / L) by (apply Rdiv_lt_0_compat; lra).
      replace (d * ((L - f) * w) - e * w) with (w / L * (d * ((L - f) * L) - e * L)) by (field; lra). nra. }
    assert (1 <= w / L) by (apply (Rmult_le_reg_r L); [lra|]; replace (w / L * L) with w by (field; lra); lra).
    assert (S : d * ((L - f) * L) - e * L > M * f) by lra.
    assert (S2 : w / L * (d * ((L - f) * L) - e * L) > M * f) by nra.
    replace (w / L * (d * ((L - f) * L) - e * L)) with (d * ((L - f) * w) - e * w) in S2 by (field; lra). lra.
Qed.
Lemma val_opp : forall a, val (b64_opp a) = - val a.
Proof. intros [s|[|]| |s m e H]; unfold b64_opp, val, Bopp; try (cbn -[INF]; lra). apply (B2R_Bopp 53 1024 (B754_finite s m e H)). Qed.
Lemma finite_opp : forall a, finite a -> finite (b64_opp a).
Proof. intros [s|s| |s m e H] F; easy. Qed.
Lemma near_opp : forall a x M e, near a x M e -> near (b64_opp a) (- x) M e.
Proof.
  intros a x M e (F & A & B). split; [now apply finite_opp|]. rewrite val_opp, Rabs_Ropp. split; [easy|].
  replace (- val a - - x) with (- (val a - x)) by ring. now rewrite Rabs_Ropp.
Qed.

(** ** Constants *)
Lemma near_ofZ : forall z M, Rabs (IZR z) <= M -> M <= 100000000000000000000 -> near (b64_ofZ z) (IZR z) M (M * u0 + e0).
Proof.
  intros z M ZM B. destruct (val_ofZ z) as [NN V]. apply (near_fl _ _ _ M 0 _ NN V); [easy| |lra|lra].
  rewrite Rminus_eq_0, Rabs_R0. lra.
Qed.
Lemma ofZ_fmt : forall z, (Z.abs z < 2 ^ 53)%Z -> finite (b64_ofZ z) /\ val (b64_ofZ z) = IZR z.
Proof.
  intros z H. destruct (val_ofZ z) as [NN V]. change (2 ^ 53)%Z with 9007199254740992%Z in H.
  assert (G : generic_format radix2 (FLT_exp (-1074) 53) (IZR z)).
  { apply generic_format_FLT. exists (Float radix2 z 0); [unfold F2R; cbn; lra| |cbn; lia]. exact H. }
  assert (B : Rabs (IZR z) <= 9007199254740992) by (rewrite <- abs_IZR; apply IZR_le; lia). apply Rabs_le_inv in B. pose proof big_INF.
  assert (E : val (b64_ofZ z) = IZR z).
  { rewrite V. unfold fl, rnd. rewrite round_generic by (apply valid_rnd_N || exact G). apply clamp_id. lra. }
  split; [|exact E]. apply finite_of_val; [easy|]. rewrite E. lra.
Qed.
Lemma rnd_fmt : forall x, finite x -> rnd (val x) = val x.
Proof. intros x F. unfold rnd. apply round_generic; [apply valid_rnd_N|now apply fmt]. Qed.
(** 1 - u is computed without error for u between 1/2 and 1. *)
Lemma one_minus : forall u, finite u -> 1/2 <= val u <= 1 -> finite (b64_sub (b64_ofZ 1) u) /\ val (b64_sub (b64_ofZ 1) u) = 1 - val u.
Proof.
  intros u F U. destruct (ofZ_fmt 1 eq_refl) as [F1 V1]. destruct (val_sub _ _ F1 F) as [NN V]. rewrite V1 in V.
  assert (G : generic_format radix2 (FLT_exp (-1074) 53) (1 - val u)).
  { apply sterbenz; [now apply FLT_exp_valid|apply FLT_exp_monotone| |now apply fmt|lra]. rewrite <- V1. now apply fmt. }
  pose proof big_INF. assert (E : val (b64_sub (b64_ofZ 1) u) = 1 - val u).
  { rewrite V. unfold fl, rnd. rewrite round_generic by (apply valid_rnd_N || exact G). apply clamp_id. lra. }
  split; [apply finite_of_val; [easy|rewrite E; lra]|exact E].
Qed.
