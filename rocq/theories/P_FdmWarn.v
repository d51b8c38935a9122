(** Properties C110 and C112: what the warnings of the finite-difference solvers say. *)
From Coq Require Import String List ZArith Bool Lia Reals Lra.
From Flocq Require Import Core.
From Verif Require Import M_Num M_Outcome M_Dict M_Stock M_Market M_Payoff M_Option M_Numeric M_Fdm M_FdmWarn.
From Verif Require Import S_Market S_Model S_Numeric S_Fdm S_FdmWell L_Dict L_Numeric L_Fdm P_LinearSystem P_FdmMarch P_FdmScheme L_FdmPivot P_FdmWell.
Import ListNotations.
Local Open Scope R_scope.

(** ** C110: the CFL warning *)
(** When it is printed: a comparison of the grid in currency units with the number 1/2. *)
Theorem C110_exact : forall k xDom J tDom N p o ip sv mem w (cf : Conf R) s,
  (2 <= J < ULONG_MOD)%Z -> (2 <= N < ULONG_MOD)%Z -> 0 < xDom -> 0 < tDom ->
  Fdm_ctor k xDom J tDom N p o ip sv mem w = Ok (cf, s) ->
  (cfl_warning cf = true <-> xDom * xDom * (IZR N - 1) <= 2 * tDom * ((IZR J - 1) * (IZR J - 1))).
Proof.
  intros k xDom J tDom N p o ip sv mem w cf s HJ HN HX HT E.
  destruct (ctor_facts _ _ _ _ _ _ _ _ _ _ _ _ _ HJ HN HX HT E) as (_ & _ & DX & DT & DX0 & DT0 & _).
  assert (PN : 0 < IZR N - 1) by (assert (2 <= IZR N) by (apply IZR_le; lia); lra).
  assert (PJ : 0 < IZR J - 1) by (assert (2 <= IZR J) by (apply IZR_le; lia); lra).
  unfold cfl_warning. rewrite half_half. cbn [nleb nmul ndiv Rnum].
  set (X := xDom * xDom) in *.
  assert (Q : cDt cf / (cDx cf * cDx cf) = tDom * ((IZR J - 1) * (IZR J - 1)) / (X * (IZR N - 1))).
  { rewrite DX, DT. unfold X. field. lra. }
  rewrite Q. assert (P : 0 < X * (IZR N - 1)) by (apply Rmult_lt_0_compat; [unfold X; nra|lra]).
  split; intros H.
  - assert (B : / 2 <= tDom * ((IZR J - 1) * (IZR J - 1)) / (X * (IZR N - 1))) by (revert H; case Rle_bool_spec; easy).
    apply Rmult_le_compat_r with (r := X * (IZR N - 1)) in B; [|lra]. unfold Rdiv in B. rewrite Rmult_assoc, Rinv_l in B by lra. lra.
  - apply Rle_bool_true. apply Rmult_le_reg_r with (X * (IZR N - 1)); [easy|]. unfold Rdiv. rewrite Rmult_assoc, Rinv_l by lra. lra.
Qed.
Print Assumptions C110_exact.

(** What silence does imply: an explicit run stays within the range of its data if moreover
    diffusion (with half a squared cell of the discount rate) is at most 1 in the chosen
    units and dominates convection.  Missing: an equation with larger diffusion, such as
    Black-Scholes with a volatility times price above 1 (see [C110_refuted]). *)
Theorem C110_partial : forall lu xDom J tDom N p o ip sv mem w0 (cf : Conf R) s w k M,
  (2 <= J < ULONG_MOD)%Z -> (2 <= N < ULONG_MOD)%Z -> 0 < xDom -> 0 < tDom ->
  Fdm_ctor KExplicit xDom J tDom N p o ip sv mem w0 = Ok (cf, s) -> evaluates p w k ->
  cfl_warning cf = false ->
  let h := xDom / (IZR J - 1) in
  (forall t x, 0 <= t <= tDom -> 0 < x < xDom ->
     Rabs (kc k t x) * h <= 2 * kd k t x /\ kr k t x <= 0 /\ kf k t x = 0 /\ kd k t x - kr k t x * (h * h) / 2 <= 1) ->
  0 <= M ->
  (forall t, 0 <= t <= tDom -> 0 <= kl k t 0 <= M /\ 0 <= kg k t xDom <= M) ->
  (forall x v, 0 <= x <= xDom -> initialCondition p w0 x = Ok v -> 0 <= v <= M) ->
  exists v s', (forall fuel, (Z.to_nat (N - 1) <= fuel)%nat -> solve lu cf w fuel s = Some (Ok v, s')) /\
    length v = Z.to_nat J /\ within M v.
Proof.
  intros lu xDom J tDom N p o ip sv mem w0 cf s w k M HJ HN HX HT E EV SIL h CO HM BD IC.
  destruct (C68_run lu _ _ _ _ _ _ _ _ _ _ _ _ w k HJ HN HX HT E EV) as (v & s' & SO & LY).
  destruct (ctor_facts _ _ _ _ _ _ _ _ _ _ _ _ _ HJ HN HX HT E) as (_ & _ & DX & DT' & _).
  exists v, s'. split; [easy|].
  assert (PN : 0 < IZR N - 1) by (assert (2 <= IZR N) by (apply IZR_le; lia); lra).
  assert (PJ : 0 < IZR J - 1) by (assert (2 <= IZR J) by (apply IZR_le; lia); lra).
  set (dt := tDom / (IZR N - 1)) in *. fold h in DX, LY.
  assert (DT : 0 < dt) by (now apply Rdiv_lt_0_compat). assert (HH : 0 < h) by (now apply Rdiv_lt_0_compat).
  assert (CFL : dt / (h * h) < / 2).
  { revert SIL. unfold cfl_warning. rewrite half_half, DX, DT'. cbn [nleb nmul ndiv Rnum]. case Rle_bool_spec; easy. }
  assert (HD : h * (IZR J - 1) = xDom) by (unfold h; field; lra).
  destruct (C66_grid _ _ _ _ _ _ _ _ _ _ _ _ _ HJ HX E) as (LX & X0 & X1 & INC & _ & LO & IV).
  pose proof (grid_el _ _ _ _ _ _ _ _ _ _ _ _ _ HJ E) as GE. fold h in GE.
  set (n := Z.to_nat J) in *.
  assert (NJ : INR n = IZR J) by (unfold n; rewrite INR_IZR_INZ, Z2Nat.id by lia; easy).
  split.
  { assert (M0 : Z.to_nat (N - 1) <> 0%nat) by lia. apply (layers_last _ (fun v => length v = n) _ _ _ M0) in LY; [exact LY|intros i old new K; apply K]. }
  revert LY. apply layers_within.
  - apply el_within. intros j H. rewrite LO in H. apply (IC (el (cX cf) j)); [|now apply IV].
    rewrite GE by easy. assert (INR j <= INR n - 1) by (change 1 with (INR 1); rewrite <- (minus_INR n 1) by lia; apply le_INR; lia).
    pose proof (pos_INR j). split; [nra|]. rewrite <- HD, <- NJ. nra.
  - intros i old new I LK W.
    assert (TI : 0 <= INR i * dt <= tDom).
    { apply lt_INR in I. rewrite (INR_IZR_INZ (Z.to_nat (N - 1))), Z2Nat.id in I by lia. rewrite minus_IZR in I.
      pose proof (pos_INR i). split; [nra|]. replace tDom with ((IZR N - 1) * dt) by (unfold dt; field; lra). nra. }
    destruct (BD _ TI) as [BL BR].
    apply (explicit_within k dt h (cX cf) n i old new M); auto; try lia; [|rewrite X0; easy|rewrite X1; easy].
    intros j JJ t x.
    assert (XJ : x = INR j * h) by (unfold x; apply GE; lia).
    assert (XR : 0 < x < xDom).
    { assert (1 <= INR j) by (change 1 with (INR 1); apply le_INR; lia).
      assert (INR j <= IZR J - 2) by (rewrite <- NJ; change 2 with (INR 2); rewrite <- (minus_INR n 2) by lia; apply le_INR; lia).
      rewrite XJ, <- HD. split; nra. }
    destruct (CO t x TI XR) as (CV & RE & RF & CD). split; [easy|]. split; [easy|]. split; [easy|].
    replace (dt * (2 * kd k t x / (h * h) - kr k t x)) with (2 * (dt / (h * h)) * (kd k t x - kr k t x * (h * h) / 2)) by (field; lra).
    assert (P0 : 0 < dt / (h * h)) by (apply Rdiv_lt_0_compat; nra).
    apply Rle_trans with (2 * (dt / (h * h)) * 1); [apply Rmult_le_compat_l; lra|lra].
Qed.
Print Assumptions C110_partial.

(** A digital call on the same stock and market as [o_bs]. *)
Definition o_dig (K mat : R) : Option R := mkOption European "A" mat (PDigital Call K) None 0.
Lemma dig_evaluates : forall S sigma r K mat,
  evaluates (BlackScholesPDE (o_dig K mat)) (w_bs S sigma r) (bs_coefs sigma r 0 Call K mat).
Proof.
  intros S sigma r K mat t x. unfold evaluates. cbn. unfold nhalf, lit, n0. cbn [nadd nsub nmul ndiv nopp nofZ nexp Rnum].
  repeat split; try reflexivity. f_equal. change (10 ^ 1)%Z with 10%Z. field.
Qed.

(** No warning, and after one explicit step the price of a digital call at a node is -1: the
    nodes are 0, 2, 4, 6, 8, the volatility is 1. *)
Theorem C110_refuted : forall lu mem, exists cf s v s',
  let o := o_dig 3 1 in let w := w_bs 4 1 0 in
  Fdm_ctor KExplicit 8 5 1 2 (BlackScholesPDE o) o None None mem w = Ok (cf, s) /\
  cfl_warning cf = false /\ solve lu cf w 1 s = Some (Ok v, s') /\ el (cX cf) 2 = 4 /\ el v 2 = -1.
Proof.
  intros lu mem. set (o := o_dig 3 1). set (w := w_bs 4 1 0).
  destruct (ctor_total _ _ KExplicit 8 5 1 2 (BlackScholesPDE o) o None None mem w) as (cf & s & E); [intros x; cbn; eauto|lia|].
  assert (HJ : (2 <= 5 < ULONG_MOD)%Z) by (unfold ULONG_MOD; lia). assert (HN : (2 <= 2 < ULONG_MOD)%Z) by (unfold ULONG_MOD; lia).
  assert (H8 : 0 < 8) by lra. assert (H1 : 0 < 1) by lra.
  destruct (C68_run lu _ _ _ _ _ _ _ _ _ _ _ _ w _ HJ HN H8 H1 E (dig_evaluates 4 1 0 3 1)) as (v & s' & SO & LY).
  pose proof (grid_el _ _ _ _ _ _ _ _ _ _ _ _ _ HJ E) as GE.
  destruct (C66_grid _ _ _ _ _ _ _ _ _ _ _ _ _ HJ H8 E) as (_ & _ & _ & _ & _ & LO & IV).
  exists cf, s, v, s'. split; [exact E|]. split; [|split; [apply SO; cbn; lia|]].
  - destruct (cfl_warning cf) eqn:W; [|easy]. apply (C110_exact _ _ _ _ _ _ _ _ _ _ _ _ _ HJ HN H8 H1 E) in W. lra.
  - split; [rewrite GE by (cbn; lia); cbn [INR]; lra|].
    inversion LY as [|m u v' LU LK A1 A2]. subst v'. inversion LU; subst. destruct LK as (_ & _ & _ & EQ).
    specialize (EQ 2%nat ltac:(cbn; lia)). unfold explicit_eq, space_at, space in EQ. cbn [Nat.sub Nat.add] in EQ.
    assert (O1 : el (fOld s) 1 = 0).
    { specialize (IV 1%nat ltac:(cbn; lia)). rewrite GE in IV by (cbn; lia). cbn in IV.
      injection IV as IV. rewrite <- IV. case Rlt_bool_spec; [lra|easy] || (case Rle_bool_spec; [lra|easy]). }
    assert (O2 : el (fOld s) 2 = 1).
    { specialize (IV 2%nat ltac:(cbn; lia)). rewrite GE in IV by (cbn; lia). cbn in IV.
      injection IV as IV. rewrite <- IV. case Rlt_bool_spec; [easy|lra] || (case Rle_bool_spec; [easy|lra]). }
    assert (O3 : el (fOld s) 3 = 1).
    { specialize (IV 3%nat ltac:(cbn; lia)). rewrite GE in IV by (cbn; lia). cbn in IV.
      injection IV as IV. rewrite <- IV. case Rlt_bool_spec; [easy|lra] || (case Rle_bool_spec; [easy|lra]). }
    rewrite O1, O2, O3 in EQ. rewrite GE in EQ by (cbn; lia). cbn [kd kc kr kf bs_coefs INR] in EQ. lra.
Qed.
Print Assumptions C110_refuted.

(** The converse fails too: the warning is printed, and every price stays between 0 and the
    strike.  The prices are in a unit 100 times larger than usual. *)
Theorem C110_false_alarm : forall lu mem, exists cf s v s',
  let o := o_bs Put 1 1 in let w := w_bs 1 (1 / 10) 0 in
  Fdm_ctor KExplicit 2 5 1 11 (BlackScholesPDE o) o None None mem w = Ok (cf, s) /\
  cfl_warning cf = false /\ within 1 v /\ solve lu cf w 10 s = Some (Ok v, s') /\
  exists cf1 s1 v1 s1', let o1 := o_bs Put (1 / 100) 1 in let w1 := w_bs (1 / 100) (1 / 10) 0 in
  Fdm_ctor KExplicit (2 / 100) 5 1 11 (BlackScholesPDE o1) o1 None None mem w1 = Ok (cf1, s1) /\
  cfl_warning cf1 = true /\ within (1 / 100) v1 /\ solve lu cf1 w1 10 s1 = Some (Ok v1, s1').
Proof.
  intros lu mem. set (o := o_bs Put 1 1). set (w := w_bs 1 (1 / 10) 0).
  set (o1 := o_bs Put (1 / 100) 1). set (w1 := w_bs (1 / 100) (1 / 10) 0).
  destruct (ctor_total _ _ KExplicit 2 5 1 11 (BlackScholesPDE o) o None None mem w (initial_total Put 1 1 w) ltac:(lia)) as (cf & s & E).
  destruct (ctor_total _ _ KExplicit (2 / 100) 5 1 11 (BlackScholesPDE o1) o1 None None mem w1 (initial_total Put (1 / 100) 1 w1) ltac:(lia)) as (cf1 & s1 & E1).
  assert (HJ : (2 <= 5 < ULONG_MOD)%Z) by (unfold ULONG_MOD; lia). assert (HN : (2 <= 11 < ULONG_MOD)%Z) by (unfold ULONG_MOD; lia).
  assert (H2 : 0 < 2) by lra. assert (H2' : 0 < 2 / 100) by lra. assert (H1 : 0 < 1) by lra.
  assert (A : Rabs (0 - 0) <= 1 / 10 * (1 / 10)) by (rewrite Rminus_0_r, Rabs_R0; lra).
  destruct (C68_vanilla_bounds lu 2 5 1 11 o None None mem w cf s w _ Put 1 HJ HN H2 (conj H1 (Rle_refl 1)) eq_refl ltac:(lra) (or_introl eq_refl)
    E (read_bs 1 (1 / 10) 0) A (Rle_refl 0) ltac:(subst w w1; cbn [mR w_bs sigma_]; lra)) as (v & s' & SO & _ & W).
  destruct (C68_vanilla_bounds lu (2 / 100) 5 1 11 o1 None None mem w1 cf1 s1 w1 _ Put (1 / 100) HJ HN H2' (conj H1 (Rle_refl 1)) eq_refl ltac:(lra) (or_introl eq_refl)
    E1 (read_bs (1 / 100) (1 / 10) 0) A (Rle_refl 0) ltac:(subst w w1; cbn [mR w_bs sigma_]; lra)) as (v1 & s1' & SO1 & _ & W1).
  exists cf, s, v, s'. split; [exact E|]. split.
  { destruct (cfl_warning cf) eqn:C; [|easy]. apply (C110_exact _ _ _ _ _ _ _ _ _ _ _ _ _ HJ HN H2 H1 E) in C. lra. }
  split; [exact W|]. split; [apply SO; cbn; lia|].
  exists cf1, s1, v1, s1'. split; [exact E1|]. split.
  { apply (C110_exact _ _ _ _ _ _ _ _ _ _ _ _ _ HJ HN H2' H1 E1). lra. }
  split; [exact W1|]. apply SO1; cbn; lia.
Qed.
Print Assumptions C110_false_alarm.

(** [C110_partial] on a put with strike 1, nodes 0, 1/2, ..., 2, volatility 10 %, ten steps. *)
Example C110_ex : forall lu mem, exists cf s v s',
  let o := o_bs Put 1 1 in let w := w_bs 1 (1 / 10) 0 in
  Fdm_ctor KExplicit 2 5 1 11 (BlackScholesPDE o) o None None mem w = Ok (cf, s) /\
  cfl_warning cf = false /\ solve lu cf w 10 s = Some (Ok v, s') /\ within 1 v.
Proof.
  intros lu mem. destruct (C110_false_alarm lu mem) as (cf & s & _ & _ & E & SIL & _). cbn zeta in *.
  set (o := o_bs Put 1 1) in *. set (w := w_bs 1 (1 / 10) 0) in *.
  assert (HJ : (2 <= 5 < ULONG_MOD)%Z) by (unfold ULONG_MOD; lia). assert (HN : (2 <= 11 < ULONG_MOD)%Z) by (unfold ULONG_MOD; lia).
  assert (H2 : 0 < 2) by lra. assert (H1 : 0 < 1) by lra.
  assert (EV := bs_evaluates o w _ Put 1 (read_bs 1 (1 / 10) 0) eq_refl (or_intror eq_refl)).
  destruct (C110_partial lu 2 5 1 11 _ o None None mem w cf s w _ 1 HJ HN H2 H1 E EV SIL) as (v & s' & SO & _ & W); [| | | |].
  - intros t x T X. cbn [kd kc kr kf bs_coefs]. subst w. cbn [sigma_ mR w_bs dividend c_].
    replace ((0 - 0) * x) with 0 by ring. rewrite Rabs_R0. repeat split; nra.
  - lra.
  - intros t T. cbn [kl kg bs_coefs]. subst w. cbn [sigma_ mR w_bs dividend c_].
    lra.
  - intros x v X IC. apply (vanilla_initial o w Put 1) in IC; auto. subst v. unfold Rmax. destruct (Rle_dec _ _); lra.
  - exists cf, s, v, s'. split; [exact E|]. split; [exact SIL|]. split; [apply SO; cbn; lia|exact W].
Qed.

(** ** C112: the diagonal-dominance warning *)
Lemma nabs_Rabs : forall x : R, nabs x = Rabs x.
Proof.
  intros x. unfold nabs, n0. cbn [nltb nofZ nopp Rnum]. case Rlt_bool_spec; intros H; [now rewrite Rabs_left|now rewrite Rabs_pos_eq].
Qed.

(** |y - x| + |y + x| for y >= 0. *)
Lemma two_abs : forall x y, 0 <= y -> Rabs (y - x) + Rabs (y + x) = 2 * Rmax y (Rabs x).
Proof.
  intros x y Y. unfold Rabs, Rmax. destruct (Rcase_abs x), (Rcase_abs (y - x)), (Rcase_abs (y + x));
    match goal with |- context [Rle_dec ?a ?b] => destruct (Rle_dec a b) end; lra.
Qed.

(** The test in the code, for the coefficients of a Black-Scholes row. *)
Lemma row_test : forall h2 a s mu q j, 0 < h2 -> 0 < a -> 0 <= s -> 0 <= q -> 0 <= j ->
  let al := h2 * (a / 2 * (s * j * j - mu * j)) in
  let be := - (h2 * (q + a * s * j * j)) in
  let ga := h2 * (a / 2 * (s * j * j + mu * j)) in
  (Rabs be < Rabs al + Rabs ga <-> q + a * s * j * j < a * Rabs mu * j).
Proof.
  intros h2 a s mu q j H2 HA HS HQ HJ al be ga.
  assert (SJ : 0 <= s * j * j) by (repeat apply Rmult_le_pos; easy).
  assert (L : Rabs al + Rabs ga = h2 * (a * Rmax (s * j * j) (Rabs mu * j))).
  { unfold al, ga. rewrite !Rabs_mult, (Rabs_pos_eq h2), (Rabs_pos_eq (a / 2)) by lra.
    transitivity (h2 * (a / 2) * (Rabs (s * j * j - mu * j) + Rabs (s * j * j + mu * j))); [ring|].
    rewrite two_abs by easy. rewrite Rabs_mult, (Rabs_pos_eq j) by easy. field. }
  assert (B : Rabs be = h2 * (q + a * s * j * j)).
  { unfold be. rewrite Rabs_Ropp, Rabs_mult, (Rabs_pos_eq h2) by lra. f_equal. apply Rabs_pos_eq. nra. }
  rewrite L, B. split; intros H.
  - apply Rmult_lt_reg_l in H; [|easy]. unfold Rmax in H. destruct (Rle_dec (s * j * j) (Rabs mu * j)); [lra|]. nra.
  - apply Rmult_lt_compat_l; [easy|]. eapply Rlt_le_trans; [exact H|]. rewrite Rmult_assoc. apply Rmult_le_compat_l; [lra|apply Rmax_r].
Qed.

(** When row j of a Black-Scholes solver is reported; no currency unit, no strike and no
    price enters. *)
Theorem C112_rows : forall k xDom J tDom N p o ip sv mem w0 (cf : Conf R) s w q sigma r c t j,
  (2 <= J < ULONG_MOD)%Z -> (2 <= N < ULONG_MOD)%Z -> 0 < xDom -> 0 < tDom ->
  Fdm_ctor k xDom J tDom N p o ip sv mem w0 = Ok (cf, s) -> evaluates p w q -> black_scholes q sigma r c ->
  (1 <= j <= J - 2)%Z -> let dt := tDom / (IZR N - 1) in 0 <= r ->
  exists b, row_warns cf w t j = Ok b /\
    (b = true <-> match k with
                  | KExplicit => False
                  | KImplicit => 1 + r * dt + dt * (sigma * sigma) * (IZR j * IZR j) < dt * Rabs (r - c) * IZR j
                  | KCrankNicolson => 2 + r * dt + dt * (sigma * sigma) * (IZR j * IZR j) < dt * Rabs (r - c) * IZR j
                  end).
Proof.
  intros k xDom J tDom N p o ip sv mem w0 cf s w q sigma r c t j HJ HN HX HT E EV BS JJ dt R0.
  pose proof (grid_el _ _ _ _ _ _ _ _ _ _ _ _ _ HJ E) as GE.
  destruct (ctor_facts _ _ _ _ _ _ _ _ _ _ _ _ _ HJ HN HX HT E) as (SC & EP & DX & DT & DX0 & DT0 & D2 & SZ & _).
  destruct SZ as (CJ & _ & LX & _). set (n := Z.to_nat J) in *. rewrite <- DX in GE. unfold dt. rewrite <- DT.
  assert (ZJ : j = Z.of_nat (Z.to_nat j)) by lia. set (i := Z.to_nat j) in *.
  assert (NJ : IZR j = INR i) by (rewrite ZJ, INR_IZR_INZ; reflexivity). rewrite NJ.
  assert (HH : 0 < cDx cf * cDx cf) by nra. assert (HS : 0 <= sigma * sigma) by nra.
  assert (RD : 0 <= r * cDt cf) by nra. assert (HI : 0 <= INR i) by apply pos_INR.
  assert (GX : vget (cX cf) j = Ok (el (cX cf) i)) by (rewrite ZJ, vget_at by lia; reflexivity).
  destruct (EV t (el (cX cf) i)) as (V1 & V2 & V3 & _). rewrite <- EP in V1, V2, V3.
  unfold row_warns. rewrite SC. destruct k; cbn [scheme_of].
  - exists false. split; [easy|]. split; easy.
  - unfold implicit_warns. rewrite GX. cbn [bind]. rewrite V1, V2, V3. cbn [bind]. eexists. split; [reflexivity|].
    rewrite !nabs_Rabs. change (nadd (Rabs ?a) (Rabs ?b)) with (Rabs a + Rabs b).
    assert (IF := i_form cf q sigma r c n t BS D2 GE i ltac:(lia)). unfold i_al, i_be, i_ga in IF. change (@at_ R Rnum) with el in IF.
    destruct IF as (-> & -> & ->).
    assert (RT := row_test (cDx cf * cDx cf) (cDt cf) (sigma * sigma) (r - c) (1 + r * cDt cf) (INR i) HH ltac:(lra) HS ltac:(lra) HI).
    cbn zeta in RT. cbn [nltb Rnum]. case Rlt_bool_spec; intros C; (split; [intros Q|intros Q]); try easy.
    + apply RT in C. lra.
    + exfalso. apply Rlt_irrefl with (Rabs (- (cDx cf * cDx cf * (1 + r * cDt cf + cDt cf * (sigma * sigma) * INR i * INR i)))).
      eapply Rlt_le_trans; [|exact C]. apply RT. lra.
  - unfold cn_warns. rewrite GX. cbn [bind]. rewrite V1, V2, V3. cbn [bind]. eexists. split; [reflexivity|].
    rewrite !nabs_Rabs. change (nadd (Rabs ?a) (Rabs ?b)) with (Rabs a + Rabs b).
    assert (IF := c_form cf q sigma r c n t BS D2 GE i ltac:(lia)). unfold c_al, c_be, c_ga in IF. change (@at_ R Rnum) with el in IF.
    destruct IF as (-> & -> & ->).
    assert (RT := row_test (cDx cf * cDx cf) (cDt cf / 2) (sigma * sigma) (r - c) (1 + r * cDt cf / 2) (INR i) HH ltac:(lra) HS ltac:(lra) HI).
    cbn zeta in RT. cbn [nltb Rnum]. case Rlt_bool_spec; intros C; (split; [intros Q|intros Q]); try easy.
    + apply RT in C. lra.
    + exfalso. apply Rlt_irrefl with (Rabs (- (cDx cf * cDx cf * (1 + r * cDt cf / 2 + cDt cf / 2 * (sigma * sigma) * INR i * INR i)))).
      eapply Rlt_le_trans; [|exact C]. apply RT. lra.
Qed.
Print Assumptions C112_rows.

Lemma warned_rows : forall (cf : Conf R) w t (P : Z -> Prop) n j0,
  (forall j, (j0 <= j < j0 + Z.of_nat n)%Z -> exists b, row_warns cf w t j = Ok b /\ (b = true <-> P j)) ->
  exists rows, warned cf w t n j0 = Ok rows /\ forall j, In j rows <-> (j0 <= j < j0 + Z.of_nat n)%Z /\ P j.
Proof.
  intros cf w t P. induction n as [|n IH]; intros j0 H.
  - exists []. split; [easy|]. intros j. split; [easy|]. intros [I _]. lia.
  - destruct (H j0 ltac:(lia)) as (b & EB & PB). destruct (IH (j0 + 1)%Z) as (rows & ER & PR); [intros j J; apply H; lia|].
    cbn [warned]. rewrite EB. cbn [bind]. rewrite ER. cbn [bind]. eexists. split; [reflexivity|]. intros j.
    assert (D : ((j0 <= j < j0 + Z.of_nat (Datatypes.S n)) <-> j = j0 \/ (j0 + 1 <= j < j0 + 1 + Z.of_nat n))%Z) by lia.
    rewrite D. specialize (PR j). destruct b; cbn [In]; rewrite PR.
    + assert (P j0) by (now apply PB). split; [intros [<- |[I Q]]; auto|]. intros [[-> |I] Q]; auto.
    + assert (NP : ~ P j0) by (intros Q; apply PB in Q; easy). split; [intros [I Q]; auto|]. intros [[-> |I] Q]; [easy|auto].
Qed.

(** The rows reported in a time step. *)
Theorem C112_exact : forall k xDom J tDom N p o ip sv mem w0 (cf : Conf R) s w q sigma r c s1,
  (3 <= J < ULONG_MOD)%Z -> (2 <= N < ULONG_MOD)%Z -> 0 < xDom -> 0 < tDom ->
  Fdm_ctor k xDom J tDom N p o ip sv mem w0 = Ok (cf, s) -> evaluates p w q -> black_scholes q sigma r c -> 0 <= r ->
  let dt := tDom / (IZR N - 1) in
  exists rows, step_warnings cf w s1 = Ok rows /\ forall j, In j rows <-> (1 <= j <= J - 2)%Z /\
    match k with
    | KExplicit => False
    | KImplicit => 1 + r * dt + dt * (sigma * sigma) * (IZR j * IZR j) < dt * Rabs (r - c) * IZR j
    | KCrankNicolson => 2 + r * dt + dt * (sigma * sigma) * (IZR j * IZR j) < dt * Rabs (r - c) * IZR j
    end.
Proof.
  intros k xDom J tDom N p o ip sv mem w0 cf s w q sigma r c s1 HJ HN HX HT E EV BS R0 dt.
  assert (J0 : (0 <= J)%Z) by lia.
  destruct (ctor_ok _ _ _ _ _ _ _ _ _ _ _ _ _ _ _ J0 E) as (_ & _ & CJ & _).
  unfold step_warnings. rewrite CJ, ulsub_small by lia.
  destruct (warned_rows cf w (nadd (fTPrev s1) (cDt cf)) (fun j => match k with
    | KExplicit => False
    | KImplicit => 1 + r * dt + dt * (sigma * sigma) * (IZR j * IZR j) < dt * Rabs (r - c) * IZR j
    | KCrankNicolson => 2 + r * dt + dt * (sigma * sigma) * (IZR j * IZR j) < dt * Rabs (r - c) * IZR j
    end) (Z.to_nat (J - 1 - 1)) 1) as (rows & ER & PR).
  - intros j JJ. apply (C112_rows k xDom J tDom N p o ip sv mem w0 cf s w q sigma r c _ j ltac:(lia) HN HX HT E EV BS ltac:(lia) R0).
  - exists rows. split; [exact ER|]. intros j. rewrite PR.
    assert (D : (1 <= j < 1 + Z.of_nat (Z.to_nat (J - 1 - 1)) <-> 1 <= j <= J - 2)%Z) by lia. rewrite D. easy.
Qed.
Print Assumptions C112_exact.

(** The part that holds: where the minimum principle of C69 applies, nothing is reported.
    Missing: silence implies that prices stay nonnegative (see [C112_refuted]). *)
Theorem C112_calm_partial : forall k xDom J tDom N p o ip sv mem w0 (cf : Conf R) s w q sigma r c s1,
  (3 <= J < ULONG_MOD)%Z -> (2 <= N < ULONG_MOD)%Z -> 0 < xDom -> 0 < tDom ->
  Fdm_ctor k xDom J tDom N p o ip sv mem w0 = Ok (cf, s) -> evaluates p w q -> black_scholes q sigma r c -> 0 <= r ->
  Rabs (r - c) <= sigma * sigma -> step_warnings cf w s1 = Ok [].
Proof.
  intros k xDom J tDom N p o ip sv mem w0 cf s w q sigma r c s1 HJ HN HX HT E EV BS R0 V.
  destruct (C112_exact k xDom J tDom N p o ip sv mem w0 cf s w q sigma r c s1 HJ HN HX HT E EV BS R0) as (rows & -> & PR).
  assert (PN : 0 < IZR N - 1) by (assert (2 <= IZR N) by (apply IZR_le; lia); lra).
  assert (DT : 0 < tDom / (IZR N - 1)) by (now apply Rdiv_lt_0_compat). set (dt := tDom / (IZR N - 1)) in *.
  destruct rows as [|j rows]; [easy|]. exfalso. destruct (proj1 (PR j) (or_introl eq_refl)) as [JJ C].
  assert (J1 : 1 <= IZR j) by (apply IZR_le; lia).
  assert (A : dt * Rabs (r - c) * IZR j <= dt * (sigma * sigma) * (IZR j * IZR j)).
  { rewrite !Rmult_assoc. apply Rmult_le_compat_l; [lra|]. pose proof (Rabs_pos (r - c)).
    apply Rle_trans with (sigma * sigma * IZR j); [apply Rmult_le_compat_r; lra|].
    replace (sigma * (sigma * (IZR j * IZR j))) with (sigma * sigma * IZR j * IZR j) by ring. assert (0 <= sigma * sigma * IZR j) by nra. nra. }
  assert (0 <= r * dt) by nra. destruct k; [easy|lra|lra].
Qed.
Print Assumptions C112_calm_partial.

(** Silence, and a negative price: the first implicit step of a put with strike 1 on the nodes
    0, 1, 2, 3, volatility 50 %, rate 100 %, one step of a year. *)
Theorem C112_refuted : forall lu mem, exists cf s v s',
  let o := o_bs Put 1 1 in let w := w_bs 1 (1 / 2) 1 in
  Fdm_ctor KImplicit 3 4 1 2 (BlackScholesPDE o) o None (Some ThomasAlgorithm) mem w = Ok (cf, s) /\
  step_warnings cf w s = Ok [] /\ solve lu cf w 1 s = Some (Ok v, s') /\ el (cX cf) 1 = 1 /\ el v 1 < 0.
Proof.
  intros lu mem. set (o := o_bs Put 1 1). set (w := w_bs 1 (1 / 2) 1).
  destruct (ctor_total _ _ KImplicit 3 4 1 2 (BlackScholesPDE o) o None (Some ThomasAlgorithm) mem w (initial_total Put 1 1 w) ltac:(lia)) as (cf & s & E).
  assert (HJ : (4 <= 4 < ULONG_MOD)%Z) by (unfold ULONG_MOD; lia). assert (HN : (2 <= 2 < ULONG_MOD)%Z) by (unfold ULONG_MOD; lia).
  assert (HJ2 : (2 <= 4 < ULONG_MOD)%Z) by lia. assert (HJ3 : (3 <= 4 < ULONG_MOD)%Z) by lia.
  assert (H3 : 0 < 3) by lra. assert (H1 : 0 < 1) by lra. assert (MX : (4 - 4 <= INT_MAX)%Z) by (unfold INT_MAX; lia).
  assert (EV := bs_evaluates o w _ Put 1 (read_bs 1 (1 / 2) 1) eq_refl (or_intror eq_refl)).
  assert (BS := bs_coefs_black_scholes (1 / 2) 1 0 Put 1 1).
  destruct (C111_implicit lu 3 4 1 2 _ o None mem w cf s w _ (1 / 2) 1 0 HJ MX HN H3 H1 E EV BS ltac:(lra)) as (v & s' & SO & LY & _).
  pose proof (grid_el _ _ _ _ _ _ _ _ _ _ _ _ _ HJ2 E) as GE.
  destruct (C66_grid _ _ _ _ _ _ _ _ _ _ _ _ _ HJ2 H3 E) as (_ & _ & _ & _ & _ & LO & IV).
  exists cf, s, v, s'. split; [exact E|]. split; [|split; [apply SO; cbn; lia|]].
  - destruct (C112_exact _ _ _ _ _ _ _ _ _ _ _ cf s w _ (1 / 2) 1 0 s HJ3 HN H3 H1 E EV BS ltac:(lra)) as (rows & -> & PR).
    destruct rows as [|j rows]; [easy|]. exfalso. destruct (proj1 (PR j) (or_introl eq_refl)) as [JJ C].
    rewrite Rabs_pos_eq in C by lra. assert (j = 1 \/ j = 2)%Z as [-> | ->] by lia; lra.
  - split; [rewrite GE by (cbn; lia); cbn [INR]; lra|].
    inversion LY as [|m u v' LU LK A1 A2]. subst v'. inversion LU; subst. destruct LK as (_ & B0 & B1 & EQ).
    pose proof (EQ 1%nat ltac:(cbn; lia)) as Q1. pose proof (EQ 2%nat ltac:(cbn; lia)) as Q2.
    unfold implicit_eq, space_at, space in Q1, Q2. cbn [Nat.sub Nat.add] in Q1, Q2.
    change (Z.to_nat 4 - 1)%nat with 3%nat in B1.
    assert (O1 : el (fOld s) 1 = 0).
    { specialize (IV 1%nat ltac:(cbn; lia)). apply (vanilla_initial o w Put 1) in IV; auto. rewrite IV, GE by (cbn; lia). cbn [INR].
      unfold Rmax. destruct (Rle_dec _ _); lra. }
    assert (O2 : el (fOld s) 2 = 0).
    { specialize (IV 2%nat ltac:(cbn; lia)). apply (vanilla_initial o w Put 1) in IV; auto. rewrite IV, GE by (cbn; lia). cbn [INR].
      unfold Rmax. destruct (Rle_dec _ _); lra. }
    rewrite O1, B0 in Q1. rewrite O2, B1 in Q2. rewrite GE in Q1, Q2 by (cbn; lia).
    cbn [kd kc kr kf kl kg bs_coefs INR] in Q1, Q2. subst w. cbn [sigma_ mR w_bs dividend c_] in Q1, Q2. lra.
Qed.
Print Assumptions C112_refuted.

(** A false alarm: rows 4 to 9 of the step of [C111_ex] are reported, although the step is
    well defined. *)
Example C112_ex : forall lu mem, exists cf s v s' rows,
  let o := o_bs Put 1 1 in let w := w_bs 1 (5 / 100) (50 / 100) in
  Fdm_ctor KImplicit 4 11 1 2 (BlackScholesPDE o) o None (Some ThomasAlgorithm) mem w = Ok (cf, s) /\
  step_warnings cf w s = Ok rows /\ In 4%Z rows /\ ~ In 3%Z rows /\ solve lu cf w 1 s = Some (Ok v, s').
Proof.
  intros lu mem. destruct (C111_ex lu mem) as (cf & s & v & s' & E & _ & SO). cbn zeta in *.
  assert (HJ : (3 <= 11 < ULONG_MOD)%Z) by (unfold ULONG_MOD; lia). assert (HN : (2 <= 2 < ULONG_MOD)%Z) by (unfold ULONG_MOD; lia).
  assert (H4 : 0 < 4) by lra. assert (H1 : 0 < 1) by lra.
  destruct (C112_exact _ _ _ _ _ _ _ _ _ _ _ cf s _ _ (5 / 100) (50 / 100) 0 s HJ HN H4 H1 E
    (bs_evaluates (o_bs Put 1 1) _ _ Put 1 (read_bs 1 (5 / 100) (50 / 100)) eq_refl (or_intror eq_refl))
    (bs_coefs_black_scholes _ _ _ _ _ _) ltac:(lra)) as (rows & ER & PR).
  exists cf, s, v, s', rows. split; [exact E|]. split; [exact ER|].
  split; [apply PR; split; [lia|rewrite Rabs_pos_eq; lra]|]. split; [|exact SO].
  intros I. apply PR in I as [_ I]. rewrite Rabs_pos_eq in I; lra.
Qed.
