(** Operations on doubles and the order. *)
From Coq Require Import ZArith Reals Bool Lra Lia.
From Flocq Require Import Core BinarySingleNaN.
From Verif Require Import M_Num S_Double S_Order L_B64.
Local Open Scope R_scope.

(** ** NaN is absorbing *)
Lemma add_nn : forall x y, notnan (b64_add x y) -> notnan x /\ notnan y.
Proof. intros [s|s| |s m e H] [s'|s'| |s' m' e' H'] N; now split. Qed.
Lemma sub_nn : forall x y, notnan (b64_sub x y) -> notnan x /\ notnan y.
Proof. intros [s|s| |s m e H] [s'|s'| |s' m' e' H'] N; now split. Qed.
Lemma mul_nn : forall x y, notnan (b64_mul x y) -> notnan x /\ notnan y.
Proof. intros [s|s| |s m e H] [s'|s'| |s' m' e' H'] N; now split. Qed.
Lemma div_nn : forall x y, notnan (b64_div x y) -> notnan x /\ notnan y.
Proof. intros [s|s| |s m e H] [s'|s'| |s' m' e' H'] N; now split. Qed.

(** ** Values of products and quotients *)
Lemma fl_sign_overflow : forall (z : b64) a s, z = B754_infinity s -> ~ (Rabs (rnd a) < INF) ->
  (s = true -> a <= 0) -> (s = false -> 0 <= a) -> val z = fl a.
Proof.
  intros z a s -> N H1 H2. symmetry. destruct s; cbn; [now apply fl_overflow_neg; auto|now apply fl_overflow_pos; auto].
Qed.
Lemma val_mul : forall x y, finite x -> finite y ->
  notnan (b64_mul x y) /\ val (b64_mul x y) = fl (val x * val y).
Proof.
  intros x y Fx Fy. pose proof (Bmult_correct 53 1024 _ _ mode_NE x y) as H.
  rewrite round_rnd in H. unfold b64_mul. rewrite (val_finite x), (val_finite y) by easy.
  destruct (Rlt_bool_spec (Rabs (rnd (B2R x * B2R y))) (bpow radix2 1024)) as [L|L].
  - destruct H as (H1 & H2 & _). rewrite Fx, Fy in H2. cbn in H2. split; [now apply finite_notnan|].
    rewrite val_finite by easy. rewrite H1. unfold fl. rewrite clamp_id; [easy|]. apply Rabs_def2 in L. unfold INF. lra.
  - apply overflow_val in H. split; [now rewrite H|].
    eapply fl_sign_overflow; [exact H|unfold INF; lra| |];
    pose proof (sign_val x Fx) as [A1 A2]; pose proof (sign_val y Fy) as [B1 B2];
    rewrite (val_finite x) in A1, A2 by easy; rewrite (val_finite y) in B1, B2 by easy;
    destruct (Bsign x), (Bsign y); cbn; intros E; try discriminate E;
    repeat match goal with Q : ?a = ?a -> _ |- _ => specialize (Q eq_refl) end; nra.
Qed.
Lemma val_div : forall x y, finite x -> finite y -> val y <> 0 ->
  notnan (b64_div x y) /\ val (b64_div x y) = fl (val x / val y).
Proof.
  intros x y Fx Fy NZ. rewrite (val_finite y) in NZ by easy. pose proof (Bdiv_correct 53 1024 _ _ mode_NE x y NZ) as H.
  rewrite round_rnd in H. unfold b64_div. rewrite (val_finite x), (val_finite y) by easy.
  destruct (Rlt_bool_spec (Rabs (rnd (B2R x / B2R y))) (bpow radix2 1024)) as [L|L].
  - destruct H as (H1 & H2 & _). rewrite Fx in H2. split; [now apply finite_notnan|].
    rewrite val_finite by easy. rewrite H1. unfold fl. rewrite clamp_id; [easy|]. apply Rabs_def2 in L. unfold INF. lra.
  - apply overflow_val in H. split; [now rewrite H|].
    assert (Y : (0 < B2R y -> 0 < / B2R y) /\ (B2R y < 0 -> / B2R y < 0)).
    { split; [apply Rinv_0_lt_compat|apply Rinv_lt_0_compat]. }
    eapply fl_sign_overflow; [exact H|unfold INF; lra| |];
    pose proof (sign_val x Fx) as [A1 A2]; pose proof (sign_val y Fy) as [B1 B2];
    rewrite (val_finite x) in A1, A2 by easy; rewrite (val_finite y) in B1, B2 by easy;
    destruct (Bsign x), (Bsign y); cbn; intros E; try discriminate E;
    repeat match goal with Q : ?a = ?a -> _ |- _ => specialize (Q eq_refl) end; unfold Rdiv;
    destruct (Rtotal_order (B2R y) 0) as [O|[O|O]]; try lra; try apply Y in O; nra.
Qed.
Lemma val_ofZ : forall z, notnan (b64_ofZ z) /\ val (b64_ofZ z) = fl (IZR z).
Proof.
  intros z. pose proof (binary_normalize_correct 53 1024 _ _ mode_NE z 0 false) as H. unfold b64_ofZ.
  assert (F : F2R (Float radix2 z 0) = IZR z) by (unfold F2R; cbn; lra). cbv zeta in H. rewrite F in H.
  change (round radix2 (SpecFloat.fexp 53 1024) (round_mode mode_NE) (IZR z)) with (rnd (IZR z)) in H.
  destruct (Rlt_bool_spec (Rabs (rnd (IZR z))) (bpow radix2 1024)) as [L|L].
  - destruct H as (H1 & H2 & _). split; [now apply finite_notnan|]. rewrite val_finite by easy. rewrite H1. unfold fl.
    rewrite clamp_id; [easy|]. apply Rabs_def2 in L. unfold INF. lra.
  - apply overflow_val in H. split; [now rewrite H|]. eapply fl_sign_overflow; [exact H|unfold INF; lra| |]; intros E.
    + apply Rlt_bool_true_iff in E || (destruct (Rlt_bool_spec (IZR z) 0); [lra|discriminate]).
    + destruct (Rlt_bool_spec (IZR z) 0); [discriminate|lra].
Qed.
Lemma fl_1 : fl 1 = 1.
Proof. rewrite <- n1_val. apply fl_val; [apply n1_notnan|apply n1_finite]. Qed.
Lemma ofZ_pos : forall z, (1 <= z)%Z -> notnan (b64_ofZ z) /\ 1 <= val (b64_ofZ z).
Proof.
  intros z Z. destruct (val_ofZ z) as [N V]. split; [exact N|]. rewrite V, <- fl_1. apply fl_le. now apply IZR_le.
Qed.

Lemma val_ninf : val (B754_infinity true) = - INF.
Proof. reflexivity. Qed.
Lemma val_pinf : val (B754_infinity false) = INF.
Proof. reflexivity. Qed.
Tactic Notation "infs" "in" hyp(X) := rewrite ?val_ninf, ?val_pinf in X.

(** ** Monotonicity.  Infinities behave as +-INF. *)
Lemma inf_ge : forall y, notnan y -> INF <= val y -> y = B754_infinity false.
Proof. intros y N H. destruct (notnan_cases y N) as [F|[->| ->]]; [pose proof (val_bounds y F); lra|infs in H; pose proof INF_pos; lra|easy]. Qed.
Lemma inf_le : forall y, notnan y -> val y <= - INF -> y = B754_infinity true.
Proof. intros y N H. destruct (notnan_cases y N) as [F|[->| ->]]; [pose proof (val_bounds y F); lra|easy|infs in H; pose proof INF_pos; lra]. Qed.
Ltac cases x N := let F := fresh "F" in destruct (notnan_cases x N) as [F|[->| ->]].

Lemma add_inf : forall x s, notnan (b64_add x (B754_infinity s)) -> b64_add x (B754_infinity s) = B754_infinity s.
Proof. intros [s|[|]| |s m e H] [|] N; try easy. Qed.
Lemma inf_add : forall x s, notnan (b64_add (B754_infinity s) x) -> b64_add (B754_infinity s) x = B754_infinity s.
Proof. intros [s|[|]| |s m e H] [|] N; try easy. Qed.
Lemma sub_inf : forall x s, notnan (b64_sub x (B754_infinity s)) -> b64_sub x (B754_infinity s) = B754_infinity (negb s).
Proof. intros [s|[|]| |s m e H] [|] N; try easy. Qed.
Lemma inf_sub : forall x s, notnan (b64_sub (B754_infinity s) x) -> b64_sub (B754_infinity s) x = B754_infinity s.
Proof. intros [s|[|]| |s m e H] [|] N; try easy. Qed.

Lemma low : forall x y, x = B754_infinity true -> notnan y -> val x <= val y.
Proof. intros x y -> N. cbn. now apply val_le_INF. Qed.
Lemma high : forall x y, y = B754_infinity false -> notnan x -> val x <= val y.
Proof. intros x y -> N. cbn. now apply val_le_INF. Qed.

Lemma add_below : forall x x' y y', below x x' -> below y y' -> below (b64_add x y) (b64_add x' y').
Proof.
  intros x x' y y' X Y N N'. destruct (add_nn _ _ N) as [NX NY]. destruct (add_nn _ _ N') as [NX' NY'].
  specialize (X NX NX'). specialize (Y NY NY'). pose proof INF_pos.
  cases x NX; [|apply low; auto using inf_add|].
  2:{ infs in X. rewrite (inf_ge x' NX' X) in N' |- *. apply high; auto using inf_add. }
  cases y NY; [|apply low; auto using add_inf|].
  2:{ infs in Y. rewrite (inf_ge y' NY' Y) in N' |- *. apply high; auto using add_inf. }
  cases x' NX'; [|pose proof (val_bounds x F); infs in X; lra|apply high; auto using inf_add].
  cases y' NY'; [|pose proof (val_bounds y F0); infs in Y; lra|apply high; auto using add_inf].
  rewrite (proj2 (val_add x y F F0)), (proj2 (val_add x' y' F1 F2)). apply fl_le. lra.
Qed.
Lemma sub_below : forall x x' y y', below x x' -> below y' y -> below (b64_sub x y) (b64_sub x' y').
Proof.
  intros x x' y y' X Y N N'. destruct (sub_nn _ _ N) as [NX NY]. destruct (sub_nn _ _ N') as [NX' NY'].
  specialize (X NX NX'). specialize (Y NY' NY). pose proof INF_pos.
  cases x NX; [|apply low; auto using inf_sub|].
  2:{ infs in X. rewrite (inf_ge x' NX' X) in N' |- *. apply high; auto using inf_sub. }
  cases y NY; [| |apply low; [exact (sub_inf _ _ N)|easy]].
  2:{ infs in Y. rewrite (inf_le y' NY' Y) in N' |- *. apply high; [exact (sub_inf _ _ N')|easy]. }
  cases x' NX'; [|pose proof (val_bounds x F); infs in X; lra|apply high; auto using inf_sub].
  cases y' NY'; [|apply high; [exact (sub_inf _ _ N')|easy]|pose proof (val_bounds y F0); infs in Y; lra].
  rewrite (proj2 (val_sub x y F F0)), (proj2 (val_sub x' y' F1 F2)). apply fl_le. lra.
Qed.

Lemma inf_sign : forall (x : b64), finite x -> val x <> 0 -> (0 < val x -> Bsign x = false) /\ (val x < 0 -> Bsign x = true).
Proof.
  intros x F NZ. pose proof (sign_val x F) as [A B]. destruct (Bsign x) eqn:E; split; intros H; auto.
  - specialize (A eq_refl). lra.
  - specialize (B eq_refl). lra.
Qed.
(** A finite number times an infinity: the infinity of its sign, or NaN for zero. *)
Lemma mul_inf : forall x s, finite x -> notnan (b64_mul x (B754_infinity s)) ->
  val x <> 0 /\ b64_mul x (B754_infinity s) = B754_infinity (xorb (Bsign x) s).
Proof.
  intros [s|[|]| |s m e H] s' F N; try easy. split; [|reflexivity]. cbn. intros Z.
  apply eq_0_F2R in Z. destruct s; discriminate Z.
Qed.
Lemma inf_mul : forall x s, finite x -> notnan (b64_mul (B754_infinity s) x) ->
  val x <> 0 /\ b64_mul (B754_infinity s) x = B754_infinity (xorb s (Bsign x)).
Proof.
  intros [s|[|]| |s m e H] s' F N; try easy. split; [|reflexivity]. cbn. intros Z.
  apply eq_0_F2R in Z. destruct s; discriminate Z.
Qed.

Lemma mul_below : forall x y e, nonneg e -> below x y -> below (b64_mul x e) (b64_mul y e).
Proof.
  intros x y e E X N N'. destruct (mul_nn _ _ N) as [NX NE]. destruct (mul_nn _ _ N') as [NY _].
  specialize (X NX NY). specialize (E NE). pose proof INF_pos.
  cases e NE.
  - cases x NX.
    + cases y NY.
      * rewrite (proj2 (val_mul x e F0 F)), (proj2 (val_mul y e F1 F)). apply fl_le. nra.
      * pose proof (val_bounds x F0). infs in X. lra.
      * destruct (inf_mul e false F N') as [NZ Q]. apply high; [|easy]. rewrite Q. now rewrite (proj1 (inf_sign e F NZ)) by lra.
    + destruct (inf_mul e true F N) as [NZ Q]. apply low; [|easy]. rewrite Q. now rewrite (proj1 (inf_sign e F NZ)) by lra.
    + infs in X. rewrite (inf_ge y NY X); apply Rle_refl.
  - infs in E. lra.
  - cases x NX.
    + destruct (mul_inf x false F N) as [NZ Q]. destruct (Rtotal_order (val x) 0) as [O|[O|O]]; [|easy|].
      * apply low; [|easy]. rewrite Q. now rewrite (proj2 (inf_sign x F NZ) O).
      * apply high; [|easy]. cases y NY; [|infs in X; lra|reflexivity].
        destruct (mul_inf y false F0 N') as [NZ' Q']. rewrite Q'. now rewrite (proj1 (inf_sign y F0 NZ')) by lra.
    + apply low; easy.
    + infs in X. rewrite (inf_ge y NY X); apply Rle_refl.
Qed.

Lemma div_below : forall x y n, notnan n -> 0 < val n -> below x y -> below (b64_div x n) (b64_div y n).
Proof.
  intros x y n NN P X N N'. destruct (div_nn _ _ N) as [NX _]. destruct (div_nn _ _ N') as [NY _].
  specialize (X NX NY). pose proof INF_pos.
  assert (S : forall s, finite n -> b64_div (B754_infinity s) n = B754_infinity s).
  { intros s F. pose proof (proj1 (inf_sign n F ltac:(lra)) P) as SG.
    destruct n as [s'|s'| |s' m e H']; cbn in SG; subst; try easy; destruct s; reflexivity. }
  cases n NN.
  - cases x NX.
    + cases y NY.
      * rewrite (proj2 (val_div x n F0 F ltac:(lra))), (proj2 (val_div y n F1 F ltac:(lra))). apply fl_le.
        apply Rmult_le_compat_r; [apply Rlt_le, Rinv_0_lt_compat, P|exact X].
      * pose proof (val_bounds x F0). infs in X. lra.
      * apply high; [now apply S|easy].
    + apply low; [now apply S|easy].
    + infs in X. rewrite (inf_ge y NY X); apply Rle_refl.
  - infs in P. lra.
  - assert (Z : forall u, finite u -> val (b64_div u (B754_infinity false)) = 0) by (intros [s|[|]| |s m e H'] F; easy).
    cases x NX; [|easy|easy]. cases y NY; [|easy|easy]. rewrite !Z by easy. lra.
Qed.

(** ** Nonnegativity *)
Lemma nonneg_0 : nonneg (b64_ofZ 0).
Proof. intros _. change (b64_ofZ 0) with (@n0 b64 B64_basic). rewrite n0_val. lra. Qed.
Lemma nonneg_1 : nonneg (b64_ofZ 1).
Proof. intros _. change (b64_ofZ 1) with (@n1 b64 B64_basic). rewrite n1_val. lra. Qed.
Lemma below_0 : forall x, nonneg x <-> below (b64_ofZ 0) x.
Proof.
  intros x. assert (V : val (b64_ofZ 0) = 0) by exact n0_val. unfold nonneg, below. rewrite V. split; [auto|]. intros H N. apply H; [reflexivity|exact N].
Qed.
Lemma add_nonneg : forall x y, nonneg x -> nonneg y -> nonneg (b64_add x y).
Proof.
  intros x y X Y. apply below_0. change (b64_ofZ 0) with (b64_add (b64_ofZ 0) (b64_ofZ 0)). apply add_below; now apply below_0.
Qed.
Lemma mul_nonneg : forall x y, nonneg x -> nonneg y -> nonneg (b64_mul x y).
Proof.
  intros x y X Y N. destruct (mul_nn _ _ N) as [NX NY]. pose proof INF_pos. cases y NY.
  - assert (Z : notnan (b64_mul (b64_ofZ 0) y)) by (apply val_mul; easy).
    pose proof (mul_below (b64_ofZ 0) x y Y (proj1 (below_0 x) X) Z N) as L.
    rewrite (proj2 (val_mul (b64_ofZ 0) y eq_refl F)) in L. change (val (b64_ofZ 0)) with (val (@n0 b64 B64_basic)) in L.
    rewrite n0_val, Rmult_0_l, fl_0 in L. exact L.
  - specialize (Y eq_refl). infs in Y. lra.
  - specialize (X NX). cases x NX; [|infs in X; lra|change (0 <= INF); lra].
    destruct (mul_inf x false F N) as [NZ Q]. rewrite Q. rewrite (proj1 (inf_sign x F NZ)) by lra. cbn. lra.
Qed.
Lemma div_nonneg : forall x n, notnan n -> 0 < val n -> nonneg x -> nonneg (b64_div x n).
Proof.
  intros x n NN P X N. pose proof INF_pos.
  assert (Z : notnan (b64_div (b64_ofZ 0) n) /\ val (b64_div (b64_ofZ 0) n) = 0).
  { cases n NN; [|infs in P; lra|split; reflexivity]. destruct (val_div (b64_ofZ 0) n eq_refl F ltac:(lra)) as [A B]. split; [exact A|].
    rewrite B. change (val (b64_ofZ 0)) with (val (@n0 b64 B64_basic)). rewrite n0_val. unfold Rdiv. rewrite Rmult_0_l. apply fl_0. }
  rewrite <- (proj2 Z). exact (div_below _ _ n NN P (proj1 (below_0 x) X) (proj1 Z) N).
Qed.
Lemma max0_nonneg : forall d, nonneg (if b64_ltb d (b64_ofZ 0) then b64_ofZ 0 else d).
Proof.
  intros d. destruct (b64_ltb d (b64_ofZ 0)) eqn:E; [exact nonneg_0|]. intros N. rewrite <- n0_val.
  exact (ltb_false_val d (b64_ofZ 0) N eq_refl E).
Qed.
Lemma max0_below : forall d d', below d d' ->
  below (if b64_ltb d (b64_ofZ 0) then b64_ofZ 0 else d) (if b64_ltb d' (b64_ofZ 0) then b64_ofZ 0 else d').
Proof.
  intros d d' H. destruct (b64_ltb d (b64_ofZ 0)) eqn:E.
  - apply below_0. apply max0_nonneg.
  - destruct (b64_ltb d' (b64_ofZ 0)) eqn:E'; [|exact H]. intros N _.
    pose proof (ltb_false_val d (b64_ofZ 0) N eq_refl E) as G.
    apply ltb_true_iff in E'. destruct E' as (N' & _ & L). specialize (H N N'). lra.
Qed.
