(** The steps of the finite-difference solvers in binary64: order and sign. *)
From Coq Require Import String List ZArith Bool Lia Reals Lra.
From Flocq Require Import Core BinarySingleNaN.
From Verif Require Import M_Num M_Outcome M_Market M_Numeric M_Fdm S_Double S_Order S_Fdm S_FdmDouble L_B64 L_Order L_Numeric L_Fdm L_Thomas P_FdmMarch.
Import ListNotations.
Local Open Scope R_scope.

(** ** More operations and the order *)
Lemma mul_comm64 : forall x y, b64_mul x y = b64_mul y x.
Proof.
  intros x y. apply B2SF_inj. unfold b64_mul.
  destruct x as [s|s| |s m e H], y as [s'|s'| |s' m' e' H']; cbn [Bmult B2SF]; rewrite ?(xorb_comm s s'); try reflexivity.
  unfold Bmult. rewrite !B2SF_SF2B. now rewrite (xorb_comm s s'), (Pos.mul_comm m m'), (Z.add_comm e e').
Qed.
Lemma mul_below_l : forall e x y, nonneg e -> below x y -> below (b64_mul e x) (b64_mul e y).
Proof. intros e x y E X. rewrite !(mul_comm64 e). now apply mul_below. Qed.

Lemma mul_below_neg : forall e x y, finite e -> val e <= 0 -> below x y -> below (b64_mul e y) (b64_mul e x).
Proof.
  intros e x y F E X. rewrite !(mul_comm64 e). intros N' N. destruct (mul_nn _ _ N) as [NX _]. destruct (mul_nn _ _ N') as [NY _].
  specialize (X NX NY). pose proof INF_pos. cases x NX.
  - cases y NY.
    + rewrite (proj2 (val_mul x e F0 F)), (proj2 (val_mul y e F1 F)). apply fl_le. nra.
    + pose proof (val_bounds x F0). infs in X. lra.
    + destruct (inf_mul e false F N') as [NZ Q]. apply low; [|easy]. rewrite Q. now rewrite (proj2 (inf_sign e F NZ)) by lra.
  - destruct (inf_mul e true F N) as [NZ Q]. apply high; [|easy]. rewrite Q. now rewrite (proj2 (inf_sign e F NZ)) by lra.
  - infs in X. rewrite (inf_ge y NY X); apply Rle_refl.
Qed.
Lemma div_below_neg : forall n x y, finite n -> val n < 0 -> below x y -> below (b64_div y n) (b64_div x n).
Proof.
  intros n x y F P X N' N. destruct (div_nn _ _ N) as [NX _]. destruct (div_nn _ _ N') as [NY _].
  specialize (X NX NY). pose proof INF_pos.
  assert (S : forall s, b64_div (B754_infinity s) n = B754_infinity (negb s)).
  { intros s. pose proof (proj2 (inf_sign n F ltac:(lra)) P) as SG.
    destruct n as [s'|s'| |s' m e H']; cbn in SG; subst; try easy; try (cbn in P; lra); destruct s; reflexivity. }
  cases x NX.
  - cases y NY.
    + rewrite (proj2 (val_div x n F0 F ltac:(lra))), (proj2 (val_div y n F1 F ltac:(lra))). apply fl_le.
      unfold Rdiv. assert (/ val n < 0) by (apply Rinv_lt_0_compat, P). nra.
    + pose proof (val_bounds x F0). infs in X. lra.
    + apply low; [now rewrite S|easy].
  - apply high; [now rewrite S|easy].
  - infs in X. rewrite (inf_ge y NY X); apply Rle_refl.
Qed.

Lemma zero_val : val (b64_ofZ 0) = 0.
Proof. exact n0_val. Qed.
Lemma nonpos_0 : forall x, nonpos x <-> below x (b64_ofZ 0).
Proof. intros x. unfold nonpos, below. rewrite zero_val. split; [auto|]. intros H N. apply H; [exact N|reflexivity]. Qed.
Lemma zero_mul : forall e, finite e -> notnan (b64_mul e (b64_ofZ 0)) /\ val (b64_mul e (b64_ofZ 0)) = 0.
Proof. intros e F. destruct (val_mul e (b64_ofZ 0) F eq_refl) as [N V]. split; [exact N|]. now rewrite V, zero_val, Rmult_0_r, fl_0. Qed.
Lemma zero_div : forall n, finite n -> val n <> 0 -> notnan (b64_div (b64_ofZ 0) n) /\ val (b64_div (b64_ofZ 0) n) = 0.
Proof.
  intros n F Z. destruct (val_div (b64_ofZ 0) n eq_refl F Z) as [N V]. split; [exact N|]. rewrite V, zero_val. unfold Rdiv.
  now rewrite Rmult_0_l, fl_0.
Qed.
Lemma sub_nonpos : forall x y, nonpos x -> nonneg y -> nonpos (b64_sub x y).
Proof.
  intros x y X Y. apply nonpos_0. change (b64_ofZ 0) with (b64_sub (b64_ofZ 0) (b64_ofZ 0)). apply sub_below; [now apply nonpos_0|now apply below_0].
Qed.
Lemma add_nonpos : forall x y, nonpos x -> nonpos y -> nonpos (b64_add x y).
Proof.
  intros x y X Y. apply nonpos_0. change (b64_ofZ 0) with (b64_add (b64_ofZ 0) (b64_ofZ 0)). apply add_below; now apply nonpos_0.
Qed.
Lemma sub_nonneg : forall x y, nonneg x -> nonpos y -> nonneg (b64_sub x y).
Proof.
  intros x y X Y. apply below_0. change (b64_ofZ 0) with (b64_sub (b64_ofZ 0) (b64_ofZ 0)). apply sub_below; [now apply below_0|now apply nonpos_0].
Qed.
Lemma mul_nonpos : forall e x, finite e -> 0 <= val e -> nonpos x -> nonpos (b64_mul e x).
Proof.
  intros e x F E X N. destruct (zero_mul e F) as [NZ VZ]. rewrite <- VZ.
  apply (mul_below_l e x (b64_ofZ 0)); auto; [intros _; exact E|now apply nonpos_0].
Qed.
Lemma mul_nonneg_nonpos : forall e x, nonneg e -> nonpos x -> nonpos (b64_mul e x).
Proof.
  intros e x E X N. destruct (mul_nn _ _ N) as [NE NX]. specialize (E NE). pose proof INF_pos as IP. cases e NE.
  - now apply (mul_nonpos e x F E X).
  - infs in E. lra.
  - specialize (X NX). cases x NX.
    + rewrite mul_comm64 in N |- *. destruct (mul_inf x false F N) as [NZ Q]. rewrite Q. rewrite (proj2 (inf_sign x F NZ)); [cbn; lra|].
      destruct (Rle_lt_or_eq_dec _ _ X); [easy|]. exfalso. apply NZ; auto.
    + change (- INF <= 0). lra.
    + infs in X. lra.
Qed.
Lemma mul_neg_nonpos : forall e x, finite e -> val e <= 0 -> nonneg x -> nonpos (b64_mul e x).
Proof.
  intros e x F E X N. destruct (zero_mul e F) as [NZ VZ]. rewrite <- VZ.
  apply (mul_below_neg e (b64_ofZ 0) x); auto. now apply below_0.
Qed.
Lemma div_neg_nonneg : forall n x, finite n -> val n < 0 -> nonpos x -> nonneg (b64_div x n).
Proof.
  intros n x F P X N. destruct (zero_div n F ltac:(lra)) as [NZ VZ]. rewrite <- VZ.
  apply (div_below_neg n x (b64_ofZ 0)); auto. now apply nonpos_0.
Qed.

(** ** The Thomas algorithm on a dominant system *)
Lemma fl_fin : forall x, finite x -> fl (val x) = val x.
Proof. intros x F. apply fl_val; [now apply finite_notnan|easy]. Qed.
Lemma between_finite : forall x, notnan x -> - INF < val x < INF -> finite x.
Proof. intros x N H. pose proof INF_pos. cases x N; [easy|infs in H; lra|infs in H; lra]. Qed.

Section Thomas64.
Variable fexp flog : b64 -> b64.
Local Notation at_ := (@at_ b64 (B64 fexp flog)).
Local Notation mat := (@mat b64 (B64 fexp flog)).
Local Notation tpv := (@tpv b64 (B64 fexp flog)).
Local Notation tcs := (@tcs b64 (B64 fexp flog)).
Local Notation tds := (@tds b64 (B64 fexp flog)).
Local Notation tback := (@tback b64 (B64 fexp flog)).
Variable A : list (list b64).
Variable al be ga : nat -> b64.
Variable n : nat.
Hypothesis MA : forall i, (Datatypes.S i < n)%nat -> mat A (Datatypes.S i) i = al (Datatypes.S i).
Hypothesis MB : forall i, (i < n)%nat -> mat A i i = be i.
Hypothesis MG : forall i, (i + 1 < n)%nat -> mat A i (i + 1) = ga i.
Hypothesis DOM : forall i, (i < n)%nat -> dominant_row (al i) (be i) (ga i).

Lemma pivot64 : forall b i, (i < n)%nat -> finite (tpv A b i) /\ val (tpv A b i) < 0 /\
  ((i + 1 < n)%nat -> finite (tcs A b i) /\ -1 <= val (tcs A b i) <= 0).
Proof.
  intros b. induction i as [|i IH]; intros I.
  - unfold tpv, tcs. cbn [sweep fst snd]. rewrite (MB 0 I). destruct (DOM 0%nat I) as (FA & FB & FG & A0 & G0 & S0 & SG).
    assert (BV : val (be 0%nat) <= val (b64_add (be 0%nat) (al 0%nat))).
    { rewrite (proj2 (val_add _ _ FB FA)). rewrite <- (fl_fin _ FB) at 1. apply fl_le. lra. }
    split; [exact FB|]. split; [lra|]. intros I1. change (mat A 0 1) with (mat A 0 (0 + 1)). rewrite (MG 0 I1).
    cbn [ndiv B64]. destruct (val_div (ga 0%nat) (be 0%nat) FG FB ltac:(lra)) as [N V].
    assert (Q : -1 <= val (ga 0%nat) / val (be 0%nat) <= 0).
    { assert (P : 0 < - val (be 0%nat)) by lra. apply Rinv_0_lt_compat in P as P'.
      replace (val (ga 0%nat) / val (be 0%nat)) with (- (val (ga 0%nat) * / - val (be 0%nat))) by (field; lra).
      assert (val (ga 0%nat) * / - val (be 0%nat) <= 1).
      { apply Rle_trans with (- val (be 0%nat) * / - val (be 0%nat)); [apply Rmult_le_compat_r; lra|rewrite Rinv_r; lra]. }
      assert (0 <= val (ga 0%nat) * / - val (be 0%nat)) by (apply Rmult_le_pos; lra). lra. }
    assert (R : -1 <= val (b64_div (ga 0%nat) (be 0%nat)) <= 0).
    { rewrite V. split; [|rewrite <- fl_0; apply fl_le; lra]. replace (-1) with (fl (- (1))) by (rewrite fl_opp, fl_1; lra). apply fl_le. lra. }
    split; [|exact R]. apply between_finite; [exact N|]. assert (1 < INF) by (apply (bpow_lt radix2 0 1024); lia). lra.
  - destruct (IH ltac:(lia)) as (_ & _ & HC). specialize (HC ltac:(lia)). destruct HC as [FC CB].
    rewrite tpv_S. rewrite (MB _ I), (MA _ I). destruct (DOM _ I) as (FA & FB & FG & A0 & G0 & S0 & SG).
    set (a := al (Datatypes.S i)) in *. set (bb := be (Datatypes.S i)) in *. set (g := ga (Datatypes.S i)) in *.
    set (c := tcs A b i) in *. cbn [nsub nmul B64].
    destruct (val_mul a c FA FC) as [NM VM].
    assert (MR : - val a <= val (b64_mul a c) <= 0).
    { rewrite VM. split; [|rewrite <- fl_0; apply fl_le; nra]. rewrite <- (fl_fin a FA) at 1. rewrite <- fl_opp. apply fl_le. nra. }
    assert (FM : finite (b64_mul a c)) by (apply between_finite; [exact NM|pose proof (val_bounds a FA); lra]).
    destruct (val_sub bb (b64_mul a c) FB FM) as [NS VS].
    assert (SR : val bb <= val (b64_sub bb (b64_mul a c)) <= val (b64_add bb a)).
    { rewrite VS, (proj2 (val_add _ _ FB FA)). split; [rewrite <- (fl_fin bb FB) at 1; apply fl_le; lra|apply fl_le; lra]. }
    assert (FS : finite (b64_sub bb (b64_mul a c))).
    { apply between_finite; [exact NS|]. pose proof (val_bounds bb FB). pose proof INF_pos. lra. }
    split; [exact FS|]. split; [lra|]. intros I1. rewrite tcs_eq, tpv_S, (MB _ I), (MA _ I), (MG _ I1).
    fold a bb g c. cbn [nsub nmul ndiv B64]. set (m := b64_sub bb (b64_mul a c)) in *.
    destruct (val_div g m FG FS ltac:(lra)) as [N V].
    assert (Q : -1 <= val g / val m <= 0).
    { assert (P : 0 < - val m) by lra. apply Rinv_0_lt_compat in P as P'.
      replace (val g / val m) with (- (val g * / - val m)) by (field; lra).
      assert (val g * / - val m <= 1).
      { apply Rle_trans with (- val m * / - val m); [apply Rmult_le_compat_r; lra|rewrite Rinv_r; lra]. }
      assert (0 <= val g * / - val m) by (apply Rmult_le_pos; lra). lra. }
    assert (R : -1 <= val (b64_div g m) <= 0).
    { rewrite V. split; [|rewrite <- fl_0; apply fl_le; lra]. replace (-1) with (fl (- (1))) by (rewrite fl_opp, fl_1; lra). apply fl_le. lra. }
    split; [|exact R]. apply between_finite; [exact N|]. assert (1 < INF) by (apply (bpow_lt radix2 0 1024); lia). lra.
Qed.

(** The pivots do not depend on the right-hand side. *)
Lemma same_pivots : forall b b' i, tpv A b i = tpv A b' i /\ tcs A b i = tcs A b' i.
Proof.
  intros b b'. induction i as [|i [_ IH]]; [split; reflexivity|].
  assert (P : tpv A b (Datatypes.S i) = tpv A b' (Datatypes.S i)) by (rewrite !tpv_S; congruence).
  split; [exact P|]. rewrite !tcs_eq. congruence.
Qed.

Lemma tds_below : forall b b', (forall i, (i < n)%nat -> below (at_ b' i) (at_ b i)) -> forall i, (i < n)%nat -> below (tds A b i) (tds A b' i).
Proof.
  intros b b' B. induction i as [|i IH]; intros I.
  - unfold tds. cbn [sweep snd]. destruct (pivot64 b 0%nat I) as (F & P & _). unfold tpv in F, P. cbn [sweep fst] in F, P.
    cbn [ndiv B64]. apply div_below_neg; auto.
  - rewrite !tds_S. rewrite (proj1 (same_pivots b' b _)). destruct (pivot64 b _ I) as (F & P & _).
    rewrite (MA _ I). cbn [nsub nmul ndiv B64]. apply div_below_neg; auto. apply sub_below; [apply B; auto|].
    apply mul_below_l; [intros _; apply (DOM _ I)|apply IH; lia].
Qed.
Lemma tback_below : forall b b', (forall i, (i < n)%nat -> below (at_ b' i) (at_ b i)) -> forall k, (k < n)%nat -> below (tback A b n k) (tback A b' n k).
Proof.
  intros b b' B. induction k as [|k IH]; intros K; cbn [L_Thomas.tback].
  - apply (tds_below b b' B). lia.
  - rewrite (proj2 (same_pivots b' b _)). destruct (pivot64 b (n - 2 - k)%nat ltac:(lia)) as (_ & _ & C). specialize (C ltac:(lia)).
    cbn [nsub nmul B64]. apply sub_below; [apply (tds_below b b' B); lia|]. apply mul_below_neg; [apply C|apply C|apply IH; lia].
Qed.
Lemma tds_nonneg : forall b, (forall i, (i < n)%nat -> nonpos (at_ b i)) -> forall i, (i < n)%nat -> nonneg (tds A b i).
Proof.
  intros b B. induction i as [|i IH]; intros I.
  - unfold tds. cbn [sweep snd]. destruct (pivot64 b 0%nat I) as (F & P & _). unfold tpv in F, P. cbn [sweep fst] in F, P.
    cbn [ndiv B64]. apply div_neg_nonneg; auto.
  - rewrite tds_S. destruct (pivot64 b _ I) as (F & P & _). rewrite (MA _ I). cbn [nsub nmul ndiv B64]. apply div_neg_nonneg; auto.
    apply sub_nonpos; [apply B; auto|]. apply mul_nonneg; [intros _; apply (DOM _ I)|apply IH; lia].
Qed.
Lemma tback_nonneg : forall b, (forall i, (i < n)%nat -> nonpos (at_ b i)) -> forall k, (k < n)%nat -> nonneg (tback A b n k).
Proof.
  intros b B. induction k as [|k IH]; intros K; cbn [L_Thomas.tback].
  - apply (tds_nonneg b B). lia.
  - destruct (pivot64 b (n - 2 - k)%nat ltac:(lia)) as (_ & _ & C). specialize (C ltac:(lia)).
    cbn [nsub nmul B64]. apply sub_nonneg; [apply (tds_nonneg b B); lia|]. apply mul_neg_nonpos; [apply C|apply C|apply IH; lia].
Qed.
End Thomas64.

(** ** Time steps *)
Section Steps.
Variable fexp flog : b64 -> b64.
Local Notation num := (B64 fexp flog).
Local Notation at_ := (@at_ b64 num).
Local Notation nadd := (@M_Num.nadd b64 num).
Local Notation nsub := (@M_Num.nsub b64 num).
Local Notation nmul := (@M_Num.nmul b64 num).
Local Notation n0 := (@M_Num.n0 b64 num).
Variable lu : LuAlg b64.
Variable kind : SchemeKind.
Variable n : nat.
Variables dt dx dx2 : b64.
Variable xs : list b64.
Variable tDom : b64.
Local Notation x0 := (at_ xs 0).
Local Notation x1 := (at_ xs (n - 1)).
Hypothesis N4 : (4 <= n)%nat.
Hypothesis MX : (Z.of_nat n - 4 <= INT_MAX)%Z.
Hypothesis FD : finite dt. Hypothesis PD : 0 <= val dt.
Hypothesis FX : finite dx2. Hypothesis PX : 0 < val dx2.

(** A solver on this grid, with Thomas where a system has to be solved. *)
Definition on_grid (cf : Conf b64) : Prop :=
  cTDom cf = tDom /\ cDt cf = dt /\ cDx cf = dx /\ cDx2 cf = dx2 /\ cX cf = xs /\ cScheme cf = scheme_of kind (Some ThomasAlgorithm).

Lemma at_seq : forall (g : nat -> b64) a m i, (i < m)%nat -> at_ (map g (seq a m)) i = g (a + i)%nat.
Proof.
  intros g a m i I. unfold L_Fdm.at_. rewrite (nth_indep _ _ (g 0%nat)) by (rewrite map_length, seq_length; lia).
  now rewrite map_nth, seq_nth.
Qed.

(** Implicit and Crank-Nicolson steps in closed form. *)
Definition i_sol (cf : Conf b64) (k : Coefs b64) (s : Fdm b64) : list b64 :=
  @tsol b64 num (@i_matrix b64 num cf k n s) (@i_rhs b64 num cf k n s) (n - 2).
Lemma implicit_step64 : forall cf w k s, on_grid cf -> kind = KImplicit -> evaluates (cPde cf) w k -> sized cf s n ->
  @time_step b64 num lu cf w s =
  (Ok tt, mkFdm (@with_ends b64 num cf k n s (i_sol cf k s)) (@with_ends b64 num cf k n s (i_sol cf k s))
            (nadd (fTPrev s) (cDt cf)) (nadd (fTPrev s) (cDt cf)) (fSolved s) (fB s)).
Proof.
  intros cf w k s (_ & _ & _ & _ & _ & SC) KI EV SZ. rewrite KI in SC. cbn [scheme_of] in SC.
  apply (@implicit_step b64 num lu cf w k n EV s ThomasAlgorithm (i_sol cf k s)); auto; [lia| |].
  - cbn [matrix_solve]. apply thomas_tsol; try lia.
    + apply tri_square_of.
    + unfold i_rhs. now rewrite map_length, seq_length.
  - unfold i_sol, tsol. now rewrite map_length, seq_length.
Qed.
Definition c_sol (cf : Conf b64) (k : Coefs b64) (s : Fdm b64) (m : nat) : list b64 :=
  @tsol b64 num (@c_matrix b64 num cf k n s m) (@b_upto b64 num cf k n s m) (n - 2).
Lemma cn_step64 : forall cf w k s, on_grid cf -> kind = KCrankNicolson -> evaluates (cPde cf) w k -> sized cf s n -> length (fB s) = (n - 2)%nat ->
  @time_step b64 num lu cf w s =
  (Ok tt, mkFdm (@with_ends b64 num cf k n s (c_sol cf k s (n - 2))) (@with_ends b64 num cf k n s (c_sol cf k s (n - 2)))
            (nadd (fTPrev s) (cDt cf)) (nadd (fTPrev s) (cDt cf)) (fSolved s) (@b_upto b64 num cf k n s (n - 2))).
Proof.
  intros cf w k s (_ & _ & _ & _ & _ & SC) KI EV SZ LB. rewrite KI in SC. cbn [scheme_of] in SC.
  apply (@cn_step b64 num lu cf w k n EV s ThomasAlgorithm (c_sol cf k s)); auto; [lia|]. intros m M. split.
  - cbn [matrix_solve]. apply thomas_tsol; try lia.
    + apply tri_square_of.
    + unfold b_upto. now rewrite map_length, seq_length.
  - unfold c_sol, tsol. now rewrite map_length, seq_length.
Qed.

(** Tridiagonal systems with dominant rows. *)
Section Systems.
Variables a b g : nat -> b64.
Hypothesis DOM : forall j, (1 <= j <= n - 2)%nat -> dominant_row (a j) (b j) (g j).
Local Notation MT := (@tri b64 num n (n - 2) a b g).
Lemma sys_a : forall i, (Datatypes.S i < n - 2)%nat -> @mat b64 num MT (Datatypes.S i) i = a (Datatypes.S i + 1)%nat.
Proof. intros i I. rewrite tri_mat by lia. destruct (Nat.eqb_spec (i + 1) (Datatypes.S i)); [easy|lia]. Qed.
Lemma sys_b : forall i, (i < n - 2)%nat -> @mat b64 num MT i i = b (i + 1)%nat.
Proof. intros i I. rewrite tri_mat by lia. destruct (Nat.eqb_spec (i + 1) i); [lia|]. now rewrite Nat.eqb_refl. Qed.
Lemma sys_g : forall i, (i + 1 < n - 2)%nat -> @mat b64 num MT i (i + 1) = g (i + 1)%nat.
Proof.
  intros i I. rewrite tri_mat by lia. destruct (Nat.eqb_spec (i + 1 + 1) i); [lia|]. destruct (Nat.eqb_spec (i + 1) i); [lia|].
  now rewrite Nat.eqb_refl.
Qed.
Lemma sys_below : forall r r', (forall i, (i < n - 2)%nat -> below (at_ r' i) (at_ r i)) -> forall j, (j < n - 2)%nat ->
  below (at_ (@tsol b64 num MT r (n - 2)) j) (at_ (@tsol b64 num MT r' (n - 2)) j).
Proof.
  intros r r' R j J. unfold tsol. rewrite !at_map_seq by lia.
  apply (tback_below fexp flog _ (fun i => a (i + 1)%nat) (fun i => b (i + 1)%nat) (fun i => g (i + 1)%nat)); try lia;
    [apply sys_a|apply sys_b|apply sys_g| |exact R]. intros i I. apply DOM. lia.
Qed.
Lemma sys_nonneg : forall r, (forall i, (i < n - 2)%nat -> nonpos (at_ r i)) -> forall j, (j < n - 2)%nat ->
  nonneg (at_ (@tsol b64 num MT r (n - 2)) j).
Proof.
  intros r R j J. unfold tsol. rewrite !at_map_seq by lia.
  apply (tback_nonneg fexp flog _ (fun i => a (i + 1)%nat) (fun i => b (i + 1)%nat) (fun i => g (i + 1)%nat)); try lia;
    [apply sys_a|apply sys_b|apply sys_g| |exact R]. intros i I. apply DOM. lia.
Qed.
End Systems.

Definition rel_states (s s' : Fdm b64) : Prop :=
  fTPrev s' = fTPrev s /\ fTCurr s' = fTCurr s /\ fTCurr s = fTPrev s /\ nonneg (fTPrev s) /\
  (kind <> KExplicit -> length (fB s) = (n - 2)%nat /\ length (fB s') = (n - 2)%nat) /\
  (forall j, (j < n)%nat -> below (at_ (fOld s) j) (at_ (fOld s') j)) /\
  (forall j, (j < n)%nat -> below (at_ (fNew s) j) (at_ (fNew s') j)).

Lemma runs : forall t, M_Num.nltb (Num := num) t tDom = true -> nonneg t -> running tDom t.
Proof. intros t L N. split; [exact L|]. apply N. now destruct t. Qed.
Lemma read_now : forall u, running tDom u -> kind <> KImplicit -> read_at kind dt tDom u.
Proof. intros u R N. exists u. auto. Qed.
Lemma read_next : forall u, running tDom u -> kind <> KExplicit -> read_at kind dt tDom (nadd u dt).
Proof. intros u R N. exists u. split; [easy|]. now right. Qed.
Lemma dt_nonneg : nonneg dt. Proof. intros _. exact PD. Qed.
Lemma dx2_nonneg : nonneg dx2. Proof. intros _. lra. Qed.
Lemma half_finite : finite (@nhalf b64 num) /\ 0 <= val (@nhalf b64 num).
Proof. split; [reflexivity|]. apply (leb_le (b64_ofZ 0) (@nhalf b64 num)); reflexivity. Qed.
Lemma scale_nonneg : nonneg (nmul (nmul (@nhalf b64 num) dx2) dt).
Proof.
  apply mul_nonneg; [apply mul_nonneg|]; [|exact dx2_nonneg|exact dt_nonneg]. intros _. apply half_finite.
Qed.

Section Two.
Variables (cf cf' : Conf b64) (w w' : Market b64) (k k' : Coefs b64).
Hypothesis OG : on_grid cf. Hypothesis OG' : on_grid cf'.
Hypothesis EV : evaluates (cPde cf) w k. Hypothesis EV' : evaluates (cPde cf') w' k'.
Hypothesis SN : forall u j, running tDom u -> (1 <= j <= n - 2)%nat -> sound_node fexp flog kind dt dx dx2 k u (at_ xs j).
Hypothesis SAME : same_operator k k'.
Hypothesis DATA : forall t, read_at kind dt tDom t -> ordered_data k k' x0 x1 t.

Lemma explicit_below : forall s s', kind = KExplicit -> rel_states s s' -> running tDom (fTPrev s) -> forall j, (1 <= j <= n - 2)%nat ->
  below (@explicit_value b64 num cf k s j) (@explicit_value b64 num cf' k' s' j).
Proof.
  intros s s' KE (TP & _ & _ & _ & _ & OLD & _) RA j J. unfold explicit_value. rewrite TP.
  destruct OG as (_ & E1 & E2 & E3 & E4 & _). destruct OG' as (_ & E1' & E2' & E3' & E4' & _).
  rewrite E1, E2, E3, E4, E1', E2', E3', E4'. destruct (SAME (fTPrev s) (at_ xs j)) as (-> & -> & ->).
  destruct (DATA _ (read_now _ RA ltac:(now rewrite KE))) as (FF & _). specialize (SN (fTPrev s) j RA J). rewrite KE in SN. destruct SN as (WL & WU & WM).
  cbn zeta. apply sub_below.
  - apply div_below; [now apply finite_notnan|exact PX|]. apply add_below; [apply add_below|]; apply mul_below_l; auto; apply OLD; lia.
  - apply mul_below_l; [exact dt_nonneg|apply FF].
Qed.
Lemma ends_below : forall s s', kind <> KExplicit -> rel_states s s' -> running tDom (fTPrev s) ->
  below (@left_value b64 num cf k (@moved b64 num cf s)) (@left_value b64 num cf' k' (@moved b64 num cf' s')) /\
  below (@right_value b64 num cf k n (@moved b64 num cf s)) (@right_value b64 num cf' k' n (@moved b64 num cf' s')).
Proof.
  intros s s' KI (TP & _) RA. destruct (DATA _ (read_next _ RA KI)) as (_ & DL & DR).
  destruct OG as (_ & E1 & E2 & E3 & E4 & SC). destruct OG' as (_ & E1' & E2' & E3' & E4' & SC').
  unfold left_value, right_value, boundary_time. rewrite SC, SC', E4, E4'. unfold moved. cbn [fTCurr fTPrev]. rewrite TP, E1, E1'.
  destruct kind; [easy| |]; split; assumption.
Qed.
Lemma rhs_below : forall s s', kind = KImplicit -> rel_states s s' -> running tDom (fTPrev s) -> forall i, (i < n - 2)%nat ->
  below (at_ (@i_rhs b64 num cf' k' n s') i) (at_ (@i_rhs b64 num cf k n s) i).
Proof.
  intros s s' KI RS RA i I. assert (NE : kind <> KExplicit) by now rewrite KI.
  destruct (ends_below s s' NE RS RA) as [LV RV]. destruct RS as (TP & _ & _ & _ & _ & OLD & _).
  unfold i_rhs. rewrite !at_seq by easy.
  destruct OG as (_ & E1 & E2 & E3 & E4 & SC). destruct OG' as (_ & E1' & E2' & E3' & E4' & SC').
  rewrite TP, E1, E1'. destruct (DATA _ (read_next _ RA NE)) as (FF & _). set (j := (1 + i)%nat).
  assert (JJ : (1 <= j <= n - 2)%nat) by lia. pose proof (SN _ j RA JJ) as SJ. rewrite KI in SJ. destruct SJ as (_ & _ & _ & WL & WU & _).
  set (t := nadd (fTPrev s) dt) in *.
  assert (EA : @i_al b64 num cf' k' t j = @i_al b64 num cf k t j).
  { unfold i_al. rewrite E1, E2, E4, E1', E2', E4'. now destruct (SAME t (at_ xs j)) as (-> & -> & _). }
  assert (EG : @i_ga b64 num cf' k' t j = @i_ga b64 num cf k t j).
  { unfold i_ga. rewrite E1, E2, E4, E1', E2', E4'. now destruct (SAME t (at_ xs j)) as (-> & -> & _). }
  unfold i_b. rewrite EA, EG, E1, E3, E4, E1', E3', E4'. cbn zeta.
  assert (NA : nonneg (@i_al b64 num cf k t j)) by (unfold i_al; rewrite E1, E2, E4; intros _; exact WL).
  assert (NG : nonneg (@i_ga b64 num cf k t j)) by (unfold i_ga; rewrite E1, E2, E4; intros _; exact WU).
  assert (B0 : below (nmul dx2 (nsub (nmul dt (kf k' t (at_ xs j))) (at_ (fOld s') j)))
                     (nmul dx2 (nsub (nmul dt (kf k t (at_ xs j))) (at_ (fOld s) j)))).
  { apply mul_below_l; [exact dx2_nonneg|]. apply sub_below; [|apply OLD; lia]. apply mul_below_l; [exact dt_nonneg|apply FF]. }
  destruct (Nat.eqb j 1), (Nat.eqb j (n - 2)); auto;
    repeat (apply sub_below; [|apply mul_below_l; auto]); auto.
Qed.
Lemma cn_rhs_below : forall s s', kind = KCrankNicolson -> rel_states s s' -> running tDom (fTPrev s) -> forall i, (i < n - 2)%nat ->
  below (at_ (@b_upto b64 num cf' k' n s' (n - 2)) i) (at_ (@b_upto b64 num cf k n s (n - 2)) i).
Proof.
  intros s s' KI RS RA i I. assert (NE : kind <> KExplicit) by now rewrite KI.
  destruct (ends_below s s' NE RS RA) as [LV RV]. destruct RS as (TP & _ & _ & _ & _ & OLD & _).
  unfold b_upto. rewrite !at_seq by easy. destruct (Nat.ltb_spec (0 + i) (n - 2)); [|lia].
  destruct OG as (_ & E1 & E2 & E3 & E4 & SC). destruct OG' as (_ & E1' & E2' & E3' & E4' & SC').
  rewrite TP, E1, E1'. destruct (DATA _ (read_next _ RA NE)) as (FF & _).
  destruct (DATA _ (read_now _ RA ltac:(now rewrite KI))) as (FF0 & _). set (j := (0 + i + 1)%nat).
  assert (JJ : (1 <= j <= n - 2)%nat) by lia. pose proof (SN _ j RA JJ) as SJ. rewrite KI in SJ.
  destruct SJ as ((_ & _ & _ & WL & WU & _) & (FL & OL) & (FU & OU) & (FM & OM)).
  set (t := nadd (fTPrev s) dt) in *.
  assert (EA : @c_al b64 num cf' k' t j = @c_al b64 num cf k t j).
  { unfold c_al. rewrite E1, E2, E4, E1', E2', E4'. now destruct (SAME t (at_ xs j)) as (-> & -> & _). }
  assert (EG : @c_ga b64 num cf' k' t j = @c_ga b64 num cf k t j).
  { unfold c_ga. rewrite E1, E2, E4, E1', E2', E4'. now destruct (SAME t (at_ xs j)) as (-> & -> & _). }
  assert (NA : nonneg (@c_al b64 num cf k t j)) by (unfold c_al; rewrite E1, E2, E4; intros _; exact WL).
  assert (NG : nonneg (@c_ga b64 num cf k t j)) by (unfold c_ga; rewrite E1, E2, E4; intros _; exact WU).
  assert (B0 : below (@c_b0 b64 num cf' k' n s' t j) (@c_b0 b64 num cf k n s t j)).
  { unfold c_b0. rewrite EA, EG, TP, E1, E3, E4, E1', E3', E4'. cbn zeta.
    assert (B0 : below (nmul (nmul (nmul nhalf dx2) dt) (nadd (kf k' t (at_ xs j)) (kf k' (fTPrev s) (at_ xs j))))
                       (nmul (nmul (nmul nhalf dx2) dt) (nadd (kf k t (at_ xs j)) (kf k (fTPrev s) (at_ xs j))))).
    { apply mul_below_l; [exact scale_nonneg|]. apply add_below; auto. }
    destruct (Nat.eqb j 1), (Nat.eqb j (n - 2)); auto;
      repeat (apply sub_below; [|apply mul_below_l; auto]); auto. }
  unfold c_b. rewrite TP, E1, E2, E3, E4, E1', E2', E3', E4'. cbn zeta.
  destruct (SAME (fTPrev s) (at_ xs j)) as (-> & -> & ->).
  assert (B1 := mul_below_neg _ _ _ FM OM (OLD j ltac:(lia))).
  assert (B2 := mul_below_neg _ _ _ FL OL (OLD (j - 1)%nat ltac:(lia))).
  assert (B3 := mul_below_neg _ _ _ FU OU (OLD (j + 1)%nat ltac:(lia))).
  destruct (Nat.ltb 1 j), (Nat.ltb j (n - 2)); repeat (apply add_below; [|first [exact B1|exact B2|exact B3]]); exact B0.
Qed.

Lemma step_rel : forall s s', sized cf s n -> sized cf' s' n -> rel_states s s' -> M_Num.nltb (Num := num) (fTPrev s) tDom = true ->
  exists s1 s1', @time_step b64 num lu cf w s = (Ok tt, s1) /\ @time_step b64 num lu cf' w' s' = (Ok tt, s1') /\ rel_states s1 s1'.
Proof.
  intros s s' SZ SZ' RS LT. pose proof OG as (_ & E1 & E2 & E3 & E4 & SC). pose proof OG' as (_ & E1' & E2' & E3' & E4' & SC').
  pose proof RS as (TP & _ & _ & N0 & LB & _ & _). pose proof (runs _ LT N0) as RA.
  assert (N1 : nonneg (nadd (fTPrev s) dt)) by (apply add_nonneg; [exact N0|exact dt_nonneg]).
  assert (NN : forall e e', below (at_ e 0) (at_ e' 0) -> below (at_ e (n - 1)) (at_ e' (n - 1)) ->
    (forall j, (1 <= j <= n - 2)%nat -> below (at_ e j) (at_ e' j)) -> forall j, (j < n)%nat -> below (at_ e j) (at_ e' j)).
  { intros e e' H0 H1 H j J. destruct (Nat.eq_dec j 0); [now subst|]. destruct (Nat.eq_dec j (n - 1)); [now subst|]. apply H. lia. }
  assert (WE : kind <> KExplicit -> forall sol sol', (forall j, (j < n - 2)%nat -> below (at_ sol j) (at_ sol' j)) ->
    forall j, (j < n)%nat -> below (at_ (@with_ends b64 num cf k n s sol) j) (at_ (@with_ends b64 num cf' k' n s' sol') j)).
  { intros NE sol sol' H j J. unfold with_ends. rewrite !at_map_seq by easy. destruct (ends_below s s' NE RS RA) as [LV RV].
    destruct (Nat.eqb_spec j 0); [exact LV|]. destruct (Nat.eqb_spec j (n - 1)); [exact RV|]. apply H. lia. }
  destruct kind eqn:KD; rewrite <- KD in *.
  - assert (SC1 : cScheme cf = EulerExplicit) by (rewrite SC, KD; reflexivity).
    assert (SC1' : cScheme cf' = EulerExplicit) by (rewrite SC', KD; reflexivity).
    eexists. eexists. split; [apply (@explicit_step b64 num lu cf w k n EV s SC1 SZ); lia|].
    split; [apply (@explicit_step b64 num lu cf' w' k' n EV' s' SC1' SZ'); lia|].
    assert (NW : forall j, (j < n)%nat -> below (at_ (@explicit_new b64 num cf k n s) j) (at_ (@explicit_new b64 num cf' k' n s') j)).
    { intros j J. unfold explicit_new. rewrite !at_map_seq by easy. rewrite E4, E4', TP.
      destruct (DATA _ (read_now _ RA ltac:(now rewrite KD))) as (_ & DL & DR).
      destruct (Nat.eqb_spec j 0); [exact DL|]. destruct (Nat.eqb_spec j (n - 1)); [exact DR|].
      apply (explicit_below s s' KD RS RA). lia. }
    unfold rel_states. cbn [fTPrev fTCurr fOld fNew fB]. rewrite TP, E1, E1'. repeat split; auto; try exact N1; now rewrite KD in *.
  - assert (NE : kind <> KExplicit) by now rewrite KD.
    eexists. eexists. split; [apply (implicit_step64 cf w k s OG KD EV SZ)|]. split; [apply (implicit_step64 cf' w' k' s' OG' KD EV' SZ')|].
    assert (MM : @i_matrix b64 num cf' k' n s' = @i_matrix b64 num cf k n s).
    { unfold i_matrix. cbn zeta. rewrite TP, E1, E1'. unfold tri, i_al, i_be, i_ga. rewrite E1, E2, E3, E4, E1', E2', E3', E4'.
      apply map_ext. intros i. apply map_ext. intros j. now destruct (SAME (nadd (fTPrev s) dt) (at_ xs (i + 1))) as (-> & -> & ->). }
    assert (NW := WE NE (i_sol cf k s) (i_sol cf' k' s')).
    unfold rel_states. cbn [fTPrev fTCurr fOld fNew fB]. rewrite TP, E1, E1'.
    assert (H : forall j, (j < n - 2)%nat -> below (at_ (i_sol cf k s) j) (at_ (i_sol cf' k' s') j)).
    { unfold i_sol. rewrite MM. apply sys_below; [|apply (rhs_below s s' KD RS RA)].
      intros j J. specialize (SN _ j RA J). rewrite KD in SN. unfold i_al, i_be, i_ga. rewrite E1, E2, E3, E4. exact SN. }
    specialize (NW H). split; [reflexivity|]. split; [reflexivity|]. split; [reflexivity|]. split; [exact N1|]. split; [exact LB|]. split; exact NW.
  - assert (NE : kind <> KExplicit) by now rewrite KD. destruct (LB NE) as [LB1 LB2].
    eexists. eexists. split; [apply (cn_step64 cf w k s OG KD EV SZ LB1)|]. split; [apply (cn_step64 cf' w' k' s' OG' KD EV' SZ' LB2)|].
    assert (MM : @c_matrix b64 num cf' k' n s' (n - 2) = @c_matrix b64 num cf k n s (n - 2)).
    { unfold c_matrix. cbn zeta. rewrite TP, E1, E1'. unfold tri, c_al, c_be, c_ga. rewrite E1, E2, E3, E4, E1', E2', E3', E4'.
      apply map_ext. intros i. apply map_ext. intros j. now destruct (SAME (nadd (fTPrev s) dt) (at_ xs (i + 1))) as (-> & -> & ->). }
    assert (NW := WE NE (c_sol cf k s (n - 2)) (c_sol cf' k' s' (n - 2))).
    unfold rel_states. cbn [fTPrev fTCurr fOld fNew fB]. rewrite TP, E1, E1'.
    assert (H : forall j, (j < n - 2)%nat -> below (at_ (c_sol cf k s (n - 2)) j) (at_ (c_sol cf' k' s' (n - 2)) j)).
    { unfold c_sol. rewrite MM. apply sys_below; [|apply (cn_rhs_below s s' KD RS RA)].
      intros j J. specialize (SN _ j RA J). rewrite KD in SN. unfold c_al, c_be, c_ga. rewrite E1, E2, E3, E4. exact (proj1 SN). }
    specialize (NW H). split; [reflexivity|]. split; [reflexivity|]. split; [reflexivity|]. split; [exact N1|].
    split; [intros _; unfold b_upto; now rewrite !map_length, !seq_length|]. split; exact NW.
Qed.

Lemma march_rel : forall fuel s s', sized cf s n -> sized cf' s' n -> rel_states s s' ->
  match @march b64 num lu cf w fuel s, @march b64 num lu cf' w' fuel s' with
  | Some (Ok _, s1), Some (Ok _, s1') => rel_states s1 s1' /\ sized cf s1 n /\ sized cf' s1' n
  | None, None => True
  | _, _ => False
  end.
Proof.
  assert (TD : cTDom cf = tDom) by apply OG. assert (TD' : cTDom cf' = tDom) by apply OG'.
  induction fuel as [|fuel IH]; intros s s' SZ SZ' RS; pose proof RS as (_ & TC & TT & _); cbn [march]; rewrite TD, TD', TC, TT.
  - destruct (M_Num.nltb _ _); auto.
  - destruct (M_Num.nltb (fTPrev s) tDom) eqn:LT; auto. destruct (step_rel s s' SZ SZ' RS LT) as (s1 & s1' & E & E' & R). rewrite E, E'.
    apply IH; [exact (sized_step _ _ _ _ _ _ _ _ SZ E)|exact (sized_step _ _ _ _ _ _ _ _ SZ' E')|exact R].
Qed.
End Two.

(** One run: data that are not negative. *)
Definition nonneg_state (s : Fdm b64) : Prop :=
  fTCurr s = fTPrev s /\ nonneg (fTPrev s) /\ (kind <> KExplicit -> length (fB s) = (n - 2)%nat) /\
  (forall j, (j < n)%nat -> nonneg (at_ (fOld s) j)) /\ (forall j, (j < n)%nat -> nonneg (at_ (fNew s) j)).
Section One.
Variables (cf : Conf b64) (w : Market b64) (k : Coefs b64).
Hypothesis OG : on_grid cf.
Hypothesis EV : evaluates (cPde cf) w k.
Hypothesis SN : forall u j, running tDom u -> (1 <= j <= n - 2)%nat -> sound_node fexp flog kind dt dx dx2 k u (at_ xs j).
Hypothesis DATA : forall t, read_at kind dt tDom t -> nonneg_data k x0 x1 t.

Lemma explicit_nonneg : forall s, kind = KExplicit -> nonneg_state s -> running tDom (fTPrev s) -> forall j, (1 <= j <= n - 2)%nat ->
  nonneg (@explicit_value b64 num cf k s j).
Proof.
  intros s KE (_ & _ & _ & OLD & _) RA j J. unfold explicit_value. destruct OG as (_ & E1 & E2 & E3 & E4 & _). rewrite E1, E2, E3, E4.
  destruct (DATA _ (read_now _ RA ltac:(now rewrite KE))) as (FF & _). specialize (SN (fTPrev s) j RA J). rewrite KE in SN. destruct SN as (WL & WU & WM).
  cbn zeta. apply sub_nonneg.
  - apply div_nonneg; [now apply finite_notnan|exact PX|]. apply add_nonneg; [apply add_nonneg|]; apply mul_nonneg; auto; apply OLD; lia.
  - apply mul_nonpos; auto.
Qed.
Lemma ends_nonneg : forall s, kind <> KExplicit -> running tDom (fTPrev s) ->
  nonneg (@left_value b64 num cf k (@moved b64 num cf s)) /\ nonneg (@right_value b64 num cf k n (@moved b64 num cf s)).
Proof.
  intros s KI RA. destruct (DATA _ (read_next _ RA KI)) as (_ & DL & DR).
  destruct OG as (_ & E1 & E2 & E3 & E4 & SC).
  unfold left_value, right_value, boundary_time. rewrite SC, E4. unfold moved. cbn [fTCurr fTPrev]. rewrite E1.
  destruct kind; [easy| |]; split; assumption.
Qed.
Lemma rhs_nonpos : forall s, kind = KImplicit -> nonneg_state s -> running tDom (fTPrev s) ->
  forall i, (i < n - 2)%nat -> nonpos (at_ (@i_rhs b64 num cf k n s) i).
Proof.
  intros s KI (_ & _ & _ & OLD & _) RA i I. assert (NE : kind <> KExplicit) by now rewrite KI.
  destruct (ends_nonneg s NE RA) as [LV RV]. destruct (DATA _ (read_next _ RA NE)) as (FF & _). unfold i_rhs. rewrite !at_seq by easy.
  destruct OG as (_ & E1 & E2 & E3 & E4 & SC). rewrite E1. set (j := (1 + i)%nat).
  assert (JJ : (1 <= j <= n - 2)%nat) by lia. pose proof (SN _ j RA JJ) as SJ. rewrite KI in SJ. destruct SJ as (_ & _ & _ & WL & WU & _).
  set (t := nadd (fTPrev s) dt) in *.
  unfold i_b. rewrite E1, E3, E4. cbn zeta.
  assert (NA : nonneg (@i_al b64 num cf k t j)) by (unfold i_al; rewrite E1, E2, E4; intros _; exact WL).
  assert (NG : nonneg (@i_ga b64 num cf k t j)) by (unfold i_ga; rewrite E1, E2, E4; intros _; exact WU).
  assert (B0 : nonpos (nmul dx2 (nsub (nmul dt (kf k t (at_ xs j))) (at_ (fOld s) j)))).
  { apply mul_nonpos; auto; [lra|]. apply sub_nonpos; [|apply OLD; lia]. apply mul_nonpos; auto. }
  destruct (Nat.eqb j 1), (Nat.eqb j (n - 2)); auto; repeat (apply sub_nonpos; [|now apply mul_nonneg]); auto.
Qed.
Lemma cn_rhs_nonpos : forall s, kind = KCrankNicolson -> nonneg_state s -> running tDom (fTPrev s) ->
  forall i, (i < n - 2)%nat -> nonpos (at_ (@b_upto b64 num cf k n s (n - 2)) i).
Proof.
  intros s KI (_ & _ & _ & OLD & _) RA i I. assert (NE : kind <> KExplicit) by now rewrite KI.
  destruct (ends_nonneg s NE RA) as [LV RV]. destruct (DATA _ (read_next _ RA NE)) as (FF & _).
  destruct (DATA _ (read_now _ RA ltac:(now rewrite KI))) as (FF0 & _). unfold b_upto. rewrite !at_seq by easy.
  destruct (Nat.ltb_spec (0 + i) (n - 2)); [|lia].
  destruct OG as (_ & E1 & E2 & E3 & E4 & SC). rewrite E1. set (j := (0 + i + 1)%nat).
  assert (JJ : (1 <= j <= n - 2)%nat) by lia. pose proof (SN _ j RA JJ) as SJ. rewrite KI in SJ.
  destruct SJ as ((_ & _ & _ & WL & WU & _) & (FL & OL) & (FU & OU) & (FM & OM)).
  set (t := nadd (fTPrev s) dt) in *.
  assert (NA : nonneg (@c_al b64 num cf k t j)) by (unfold c_al; rewrite E1, E2, E4; intros _; exact WL).
  assert (NG : nonneg (@c_ga b64 num cf k t j)) by (unfold c_ga; rewrite E1, E2, E4; intros _; exact WU).
  assert (B0 : nonpos (@c_b0 b64 num cf k n s t j)).
  { unfold c_b0. rewrite E1, E3, E4. cbn zeta.
    assert (B0 : nonpos (nmul (nmul (nmul nhalf dx2) dt) (nadd (kf k t (at_ xs j)) (kf k (fTPrev s) (at_ xs j))))).
    { apply mul_nonneg_nonpos; [exact scale_nonneg|]. apply add_nonpos; auto. }
    destruct (Nat.eqb j 1), (Nat.eqb j (n - 2)); auto; repeat (apply sub_nonpos; [|now apply mul_nonneg]); auto. }
  unfold c_b. rewrite E1, E2, E3, E4. cbn zeta.
  assert (B1 := mul_neg_nonpos _ _ FM OM (OLD j ltac:(lia))).
  assert (B2 := mul_neg_nonpos _ _ FL OL (OLD (j - 1)%nat ltac:(lia))).
  assert (B3 := mul_neg_nonpos _ _ FU OU (OLD (j + 1)%nat ltac:(lia))).
  destruct (Nat.ltb 1 j), (Nat.ltb j (n - 2)); repeat (apply add_nonpos; [|first [exact B1|exact B2|exact B3]]); exact B0.
Qed.
Lemma step_nonneg : forall s, sized cf s n -> nonneg_state s -> M_Num.nltb (Num := num) (fTPrev s) tDom = true ->
  exists s1, @time_step b64 num lu cf w s = (Ok tt, s1) /\ nonneg_state s1.
Proof.
  intros s SZ NS LT. pose proof OG as (_ & E1 & E2 & E3 & E4 & SC). pose proof NS as (_ & N0 & LB & _ & _). pose proof (runs _ LT N0) as RA.
  assert (N1 : nonneg (nadd (fTPrev s) (cDt cf))) by (rewrite E1; apply add_nonneg; [exact N0|exact dt_nonneg]).
  assert (WE : kind <> KExplicit -> forall sol, (forall j, (j < n - 2)%nat -> nonneg (at_ sol j)) ->
    forall j, (j < n)%nat -> nonneg (at_ (@with_ends b64 num cf k n s sol) j)).
  { intros NE sol H j J. unfold with_ends. rewrite !at_map_seq by easy. destruct (ends_nonneg s NE RA) as [LV RV].
    destruct (Nat.eqb_spec j 0); [exact LV|]. destruct (Nat.eqb_spec j (n - 1)); [exact RV|]. apply H. lia. }
  destruct kind eqn:KD; rewrite <- KD in *.
  - assert (SC1 : cScheme cf = EulerExplicit) by (rewrite SC, KD; reflexivity).
    eexists. split; [apply (@explicit_step b64 num lu cf w k n EV s SC1 SZ); lia|].
    assert (NW : forall j, (j < n)%nat -> nonneg (at_ (@explicit_new b64 num cf k n s) j)).
    { intros j J. unfold explicit_new. rewrite !at_map_seq by easy. rewrite E4. destruct (DATA _ (read_now _ RA ltac:(now rewrite KD))) as (_ & DL & DR).
      destruct (Nat.eqb_spec j 0); [exact DL|]. destruct (Nat.eqb_spec j (n - 1)); [exact DR|].
      apply (explicit_nonneg s KD NS RA). lia. }
    split; [reflexivity|]. split; [exact N1|]. split; [now rewrite KD in *|]. split; exact NW.
  - assert (NE : kind <> KExplicit) by now rewrite KD.
    eexists. split; [apply (implicit_step64 cf w k s OG KD EV SZ)|].
    assert (NW := WE NE (i_sol cf k s)).
    assert (H : forall j, (j < n - 2)%nat -> nonneg (at_ (i_sol cf k s) j)).
    { unfold i_sol. apply sys_nonneg; [|apply (rhs_nonpos s KD NS RA)].
      intros j J. specialize (SN _ j RA J). rewrite KD in SN. unfold i_al, i_be, i_ga. rewrite E1, E2, E3, E4. exact SN. }
    specialize (NW H). split; [reflexivity|]. split; [exact N1|]. split; [exact LB|]. split; exact NW.
  - assert (NE : kind <> KExplicit) by now rewrite KD.
    eexists. split; [apply (cn_step64 cf w k s OG KD EV SZ (LB NE))|].
    assert (NW := WE NE (c_sol cf k s (n - 2))).
    assert (H : forall j, (j < n - 2)%nat -> nonneg (at_ (c_sol cf k s (n - 2)) j)).
    { unfold c_sol. apply sys_nonneg; [|apply (cn_rhs_nonpos s KD NS RA)].
      intros j J. specialize (SN _ j RA J). rewrite KD in SN. unfold c_al, c_be, c_ga. rewrite E1, E2, E3, E4. exact (proj1 SN). }
    specialize (NW H). split; [reflexivity|]. split; [exact N1|].
    split; [intros _; cbn [fB]; unfold b_upto; now rewrite !map_length, !seq_length|]. split; exact NW.
Qed.
Lemma march_nonneg : forall fuel s, sized cf s n -> nonneg_state s ->
  match @march b64 num lu cf w fuel s with
  | Some (Ok _, s1) => nonneg_state s1 /\ sized cf s1 n
  | None => True
  | _ => False
  end.
Proof.
  assert (TD : cTDom cf = tDom) by apply OG.
  induction fuel as [|fuel IH]; intros s SZ NS; pose proof NS as (TT & _); cbn [march]; rewrite TD, TT.
  - destruct (M_Num.nltb _ _); auto.
  - destruct (M_Num.nltb (fTPrev s) tDom) eqn:LT; auto. destruct (step_nonneg s SZ NS LT) as (s1 & E & R). rewrite E.
    apply IH; [exact (sized_step _ _ _ _ _ _ _ _ SZ E)|exact R].
Qed.
End One.
End Steps.
