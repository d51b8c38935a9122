(** Properties C68-C72: the three finite-difference schemes. *)
From Coq Require Import String List ZArith Bool Lia Reals Lra.
From Flocq Require Import Core.
From Verif Require Import M_Num M_Outcome M_Dict M_Stock M_Market M_Payoff M_Option M_Numeric M_Fdm.
From Verif Require Import S_Market S_Model S_Numeric S_Fdm L_Dict L_Numeric L_Fdm P_LinearSystem P_FdmMarch.
Import ListNotations.
Local Open Scope R_scope.

Lemma at_el : forall v j, at_ v j = el v j.
Proof. reflexivity. Qed.
Lemma half_half : (nhalf : R) = / 2.
Proof. unfold nhalf, lit. cbn [ndiv nofZ Rnum]. change (10 ^ 1)%Z with 10%Z. field. Qed.
Lemma two_two : (n2 : R) = 2.
Proof. reflexivity. Qed.

Lemma steps_snoc : forall T (num : Num T) lu cf w n (s s2 : Fdm T), steps lu cf w (Datatypes.S n) s s2 ->
  exists s1, steps lu cf w n s s1 /\ time_step lu cf w s1 = (Ok tt, s2).
Proof.
  intros T num lu cf w. induction n as [|n IH]; intros s s2 H.
  - inversion H as [|? ? s1 ? E R]; subst. inversion R; subst. exists s. split; [constructor|easy].
  - inversion H as [|? ? s1 ? E R]; subst. apply IH in R as (s3 & R & E'). exists s3. split; [econstructor; eauto|easy].
Qed.
Lemma steps_add1 : forall T (num : Num T) lu cf w n (s s1 s2 : Fdm T),
  steps lu cf w n s s1 -> time_step lu cf w s1 = (Ok tt, s2) -> steps lu cf w (Datatypes.S n) s s2.
Proof.
  intros T num lu cf w n s s1 s2 H E. revert E. induction H as [s|n s s3 s4 E3 H IH]; intros E.
  - econstructor; [exact E|constructor].
  - econstructor; [exact E3|auto].
Qed.

(** ** C68, the scheme *)
Theorem C68_step : forall lu (cf : Conf R) w k n s,
  cScheme cf = EulerExplicit -> evaluates (cPde cf) w k -> sized cf s n -> (2 <= n)%nat ->
  cDx cf <> 0 -> cDt cf <> 0 -> cDx2 cf = cDx cf * cDx cf ->
  exists s', time_step lu cf w s = (Ok tt, s') /\ fOld s' = fNew s' /\ length (fNew s') = n /\
    el (fNew s') 0 = kl k (fTPrev s) (el (cX cf) 0) /\
    el (fNew s') (n - 1) = kg k (fTPrev s) (el (cX cf) (n - 1)) /\
    forall j, (1 <= j <= n - 2)%nat -> explicit_eq k (cDt cf) (cDx cf) (fTPrev s) (cX cf) (fOld s) (fNew s') j.
Proof.
  intros lu cf w k n s SC EV SZ H DX DT D2. eexists. split; [now apply (explicit_step lu cf w k n)|].
  cbn [fOld fNew]. split; [easy|]. split; [unfold explicit_new; now rewrite map_length, seq_length|].
  assert (EL : forall j, (j < n)%nat -> el (explicit_new cf k n s) j =
    if Nat.eqb j 0 then kl k (fTPrev s) (el (cX cf) 0) else if Nat.eqb j (n - 1) then kg k (fTPrev s) (el (cX cf) (n - 1))
    else explicit_value cf k s j).
  { intros j J. unfold explicit_new. rewrite <- at_el. now rewrite at_map_seq. }
  split; [rewrite EL by lia; easy|]. split.
  { rewrite EL by lia. rewrite Nat.eqb_refl. destruct (Nat.eqb_spec (n - 1) 0); [lia|easy]. }
  intros j J. unfold explicit_eq. rewrite EL by lia. destruct (Nat.eqb_spec j 0); [lia|]. destruct (Nat.eqb_spec j (n - 1)); [lia|].
  unfold explicit_value, space_at, space. rewrite half_half, two_two, D2. cbn [nadd nsub nmul ndiv Rnum]. change (@at_ R Rnum) with el. field. auto.
Qed.
Print Assumptions C68_step.

(** A whole run from the constructor: solve returns the last of N-1 explicit layers that
    start at the payoff. *)
Theorem C68_run : forall lu xDom J tDom N p o ip sv mem w0 (cf : Conf R) s w k,
  (2 <= J < ULONG_MOD)%Z -> (2 <= N < ULONG_MOD)%Z -> 0 < xDom -> 0 < tDom ->
  Fdm_ctor KExplicit xDom J tDom N p o ip sv mem w0 = Ok (cf, s) -> evaluates p w k ->
  let m := Z.to_nat (N - 1) in
  exists v s', (forall fuel, (m <= fuel)%nat -> solve lu cf w fuel s = Some (Ok v, s')) /\
    layers (explicit_layer k (tDom / (IZR N - 1)) (xDom / (IZR J - 1)) (cX cf) (Z.to_nat J)) (fOld s) m v.
Proof.
  intros lu xDom J tDom N p o ip sv mem w0 cf s w k HJ HN HX HT E EV m.
  assert (J0 : (0 <= J)%Z) by lia.
  destruct (ctor_ok _ _ _ _ _ _ _ _ _ _ _ _ _ _ _ J0 E)
    as (SC & _ & _ & TD & _ & EP & _ & _ & DX & D2 & DT & _ & _ & _ & FN & TP & _).
  cbn [ndiv nofZ Rnum] in DX, DT. rewrite ulsub_small, minus_IZR in DX, DT by lia. cbn [nmul Rnum] in D2.
  assert (PN : 0 < IZR N - 1) by (assert (2 <= IZR N) by (apply IZR_le; lia); lra).
  assert (PJ : 0 < IZR J - 1) by (assert (2 <= IZR J) by (apply IZR_le; lia); lra).
  rewrite <- DX, <- DT. rewrite <- EP in EV.
  assert (DX0 : cDx cf <> 0) by (rewrite DX; apply Rgt_not_eq; now apply Rdiv_lt_0_compat).
  assert (DT0 : cDt cf <> 0) by (rewrite DT; apply Rgt_not_eq; now apply Rdiv_lt_0_compat).
  destruct (C67_exact lu _ _ _ _ _ _ _ _ _ _ _ _ _ HN HT J0 E) as (_ & RUN & CL).
  assert (SZ0 : sized cf s (Z.to_nat J)) by (eapply ctor_sized; [|exact E]; lia).
  cbn [scheme_of] in SC.
  assert (G : forall i, exists s1, steps lu cf w i s s1 /\ sized cf s1 (Z.to_nat J) /\ (i <> 0%nat -> fOld s1 = fNew s1) /\
              layers (explicit_layer k (cDt cf) (cDx cf) (cX cf) (Z.to_nat J)) (fOld s) i (fOld s1)).
  { induction i as [|i IH].
    - exists s. repeat split; try apply SZ0; [constructor|lia|constructor].
    - destruct IH as (s1 & ST & SZ & _ & LY).
      destruct (C68_step lu cf w k (Z.to_nat J) s1 SC EV SZ ltac:(lia) DX0 DT0 D2) as (s2 & E2 & ON & L2 & B0 & B1 & EQ).
      pose proof (CL _ _ _ ST) as TPI. rewrite <- DT in TPI.
      exists s2. split; [eapply steps_add1; eauto|]. split; [eapply sized_step; eauto|]. split; [easy|].
      econstructor; [exact LY|]. unfold explicit_layer. rewrite ON, <- TPI. repeat split; auto. }
  destruct (G m) as (s1 & ST & _ & ON & LY). rewrite ON in LY by (unfold m; lia).
  exists (fNew s1), (finished s1). split; [|easy]. intros fuel F. now apply RUN.
Qed.
Print Assumptions C68_run.

(** ** C68, bounds *)
Lemma within_el : forall M u j, within M u -> 0 <= M -> 0 <= el u j <= M.
Proof.
  intros M u j H P. destruct (lt_dec j (length u)) as [L|L].
  - unfold within in H. rewrite Forall_forall in H. apply H. now apply nth_In.
  - unfold el. rewrite nth_overflow by lia. lra.
Qed.
Lemma el_within : forall M u, (forall j, (j < length u)%nat -> 0 <= el u j <= M) -> within M u.
Proof.
  intros M u H. apply Forall_forall. intros x I. destruct (In_nth u x 0 I) as (j & L & <-). now apply H.
Qed.

(** Any equation: nonnegative weights with sum at most one. *)
Lemma explicit_within : forall k dt h xs n i old new M,
  0 < h -> 0 < dt -> 0 <= M -> (2 <= n)%nat -> explicit_layer k dt h xs n i old new ->
  (forall j, (1 <= j <= n - 2)%nat -> let t := INR i * dt in let x := el xs j in
     Rabs (kc k t x) * h <= 2 * kd k t x /\ kr k t x <= 0 /\ kf k t x = 0 /\ dt * (2 * kd k t x / (h * h) - kr k t x) <= 1) ->
  0 <= kl k (INR i * dt) (el xs 0) <= M -> 0 <= kg k (INR i * dt) (el xs (n - 1)) <= M ->
  within M old -> within M new.
Proof.
  intros k dt h xs n i old new M HH HT HM HN (LN & B0 & B1 & EQ) C BL BR W.
  apply el_within. intros j J. rewrite LN in J.
  destruct (Nat.eq_dec j 0) as [-> |J0]; [now rewrite B0|].
  destruct (Nat.eq_dec j (n - 1)) as [-> |J1]; [now rewrite B1|].
  assert (JJ : (1 <= j <= n - 2)%nat) by lia. specialize (EQ j JJ). destruct (C j JJ) as (CV & RE & RF & CF). cbn zeta in CV, RE, RF, CF.
  set (t := INR i * dt) in *. set (x := el xs j) in *. unfold explicit_eq, space_at, space in EQ. fold x in EQ. rewrite RF in EQ.
  pose proof (within_el M old (j - 1) W HM) as A1. pose proof (within_el M old j W HM) as A2. pose proof (within_el M old (j + 1) W HM) as A3.
  set (a := dt * (kd k t x / (h * h) - kc k t x / (2 * h))).
  set (b := 1 - dt * (2 * kd k t x / (h * h) - kr k t x)).
  set (g := dt * (kd k t x / (h * h) + kc k t x / (2 * h))).
  assert (V : el new j = a * el old (j - 1) + b * el old j + g * el old (j + 1)).
  { apply (f_equal (fun y => y * dt + el old j)) in EQ.
    transitivity ((el new j - el old j) / dt * dt + el old j); [field; lra|]. rewrite EQ. unfold a, b, g. field. repeat split; lra. }
  assert (HC : - (2 * kd k t x) <= kc k t x * h <= 2 * kd k t x).
  { assert (Rabs (kc k t x * h) <= 2 * kd k t x) by (rewrite Rabs_mult, (Rabs_pos_eq h); lra). now apply Rabs_le_inv. }
  assert (PA : 0 <= a).
  { unfold a. apply Rmult_le_pos; [lra|].
    replace (kd k t x / (h * h) - kc k t x / (2 * h)) with ((2 * kd k t x - kc k t x * h) / (2 * (h * h))) by (field; lra).
    apply Rmult_le_pos; [lra|]. apply Rlt_le, Rinv_0_lt_compat. nra. }
  assert (PG : 0 <= g).
  { unfold g. apply Rmult_le_pos; [lra|].
    replace (kd k t x / (h * h) + kc k t x / (2 * h)) with ((2 * kd k t x + kc k t x * h) / (2 * (h * h))) by (field; lra).
    apply Rmult_le_pos; [lra|]. apply Rlt_le, Rinv_0_lt_compat. nra. }
  assert (PB : 0 <= b) by (unfold b; lra).
  assert (SUM : a + b + g <= 1).
  { replace (a + b + g) with (1 + dt * kr k t x) by (unfold a, b, g; field; lra). nra. }
  rewrite V. split; [|].
  - apply Rplus_le_le_0_compat; [apply Rplus_le_le_0_compat|]; apply Rmult_le_pos; lra.
  - apply Rle_trans with (a * M + b * M + g * M); [|nra].
    apply Rplus_le_compat; [apply Rplus_le_compat|]; apply Rmult_le_compat_l; lra.
Qed.

Lemma layers_within : forall (link : nat -> list R -> list R -> Prop) M u m v, within M u ->
  (forall i old new, (i < m)%nat -> link i old new -> within M old -> within M new) -> layers link u m v -> within M v.
Proof.
  intros link M u m v W H L. induction L as [|m v v' L IH K]; [easy|].
  eapply H; [|exact K|]; [lia|]. apply IH. intros i old new I. apply H. lia.
Qed.

Lemma layers_last : forall (link : nat -> list R -> list R -> Prop) (P : list R -> Prop) u m v, m <> 0%nat ->
  (forall i old new, link i old new -> P new) -> layers link u m v -> P v.
Proof. intros link P u m v M H L. destruct L as [|m v v' L K]; [easy|eauto]. Qed.

(** The Black-Scholes coefficients on the grid of the code. *)
Lemma grid_el : forall k xDom J tDom N p o ip sv mem w (cf : Conf R) s,
  (2 <= J < ULONG_MOD)%Z -> Fdm_ctor k xDom J tDom N p o ip sv mem w = Ok (cf, s) ->
  forall j, (j < Z.to_nat J)%nat -> el (cX cf) j = INR j * (xDom / (IZR J - 1)).
Proof.
  intros k xDom J tDom N p o ip sv mem w cf s HJ E j H. assert (J0 : (0 <= J)%Z) by lia.
  destruct (ctor_ok _ _ _ _ _ _ _ _ _ _ _ _ _ _ _ J0 E) as (_ & _ & _ & _ & _ & _ & _ & _ & DX & _ & _ & X & _).
  cbn [ndiv nmul nofZ Rnum] in DX, X. rewrite ulsub_small, minus_IZR in DX by lia. rewrite <- DX, X.
  change (el (map (fun i => IZR (Z.of_nat i) * cDx cf) (seq 0 (Z.to_nat J))) j)
    with (at_ (map (fun i => IZR (Z.of_nat i) * cDx cf) (seq 0 (Z.to_nat J))) j).
  rewrite at_map_seq by easy. now rewrite INR_IZR_INZ.
Qed.

Lemma bs_peclet : forall sigma r c ty K mat h t j, 0 < h -> (1 <= j)%nat -> Rabs (r - c) <= sigma * sigma ->
  Rabs (kc (bs_coefs sigma r c ty K mat) t (INR j * h)) * h <= 2 * kd (bs_coefs sigma r c ty K mat) t (INR j * h).
Proof.
  intros sigma r c ty K mat h t j HH J V. cbn [kc kd bs_coefs].
  assert (1 <= INR j) by (change 1 with (INR 1); now apply le_INR).
  rewrite !Rabs_mult, (Rabs_pos_eq h), (Rabs_pos_eq (INR j)) by lra.
  replace (2 * (sigma * sigma * (INR j * h) * (INR j * h) / 2)) with ((sigma * sigma * INR j) * (INR j * h * h)) by field.
  replace (Rabs (r - c) * (INR j * h) * h) with (Rabs (r - c) * (INR j * h * h)) by ring.
  apply Rmult_le_compat_r; [apply Rmult_le_pos; [apply Rmult_le_pos|]; lra|].
  pose proof (Rabs_pos (r - c)). nra.
Qed.

(** Prices stay between 0 and M, whatever the payoff, when the data do: the diffusion,
    convection and reaction are those of Black-Scholes and the step is small enough. *)
Theorem C68_bounds : forall lu xDom J tDom N p o ip sv mem w0 (cf : Conf R) s w k sigma r c M,
  (2 <= J < ULONG_MOD)%Z -> (2 <= N < ULONG_MOD)%Z -> 0 < xDom -> 0 < tDom ->
  Fdm_ctor KExplicit xDom J tDom N p o ip sv mem w0 = Ok (cf, s) -> evaluates p w k ->
  (forall t x, kd k t x = sigma * sigma * x * x / 2 /\ kc k t x = (r - c) * x /\ kr k t x = - r /\ kf k t x = 0) ->
  Rabs (r - c) <= sigma * sigma -> 0 <= r ->
  tDom / (IZR N - 1) * (sigma * sigma * ((IZR J - 2) * (IZR J - 2)) + r) <= 1 ->
  0 <= M ->
  (forall t, 0 <= t <= tDom -> 0 <= kl k t 0 <= M /\ 0 <= kg k t xDom <= M) ->
  (forall x v, 0 <= x <= xDom -> initialCondition p w0 x = Ok v -> 0 <= v <= M) ->
  exists v s', (forall fuel, (Z.to_nat (N - 1) <= fuel)%nat -> solve lu cf w fuel s = Some (Ok v, s')) /\
    length v = Z.to_nat J /\ within M v.
Proof.
  intros lu xDom J tDom N p o ip sv mem w0 cf s w k sigma r c M HJ HN HX HT E EV BS V R0 CFL HM BD IC.
  destruct (C68_run lu _ _ _ _ _ _ _ _ _ _ _ _ w k HJ HN HX HT E EV) as (v & s' & SO & LY).
  exists v, s'. split; [easy|].
  assert (PN : 0 < IZR N - 1) by (assert (2 <= IZR N) by (apply IZR_le; lia); lra).
  assert (PJ : 0 < IZR J - 1) by (assert (2 <= IZR J) by (apply IZR_le; lia); lra).
  set (dt := tDom / (IZR N - 1)) in *. set (h := xDom / (IZR J - 1)) in *.
  assert (DT : 0 < dt) by (now apply Rdiv_lt_0_compat). assert (HH : 0 < h) by (now apply Rdiv_lt_0_compat).
  assert (HD : h * (IZR J - 1) = xDom) by (unfold h; field; lra).
  destruct (C66_grid _ _ _ _ _ _ _ _ _ _ _ _ _ HJ HX E) as (LX & X0 & X1 & INC & _ & LO & IV).
  pose proof (grid_el _ _ _ _ _ _ _ _ _ _ _ _ _ HJ E) as GE. fold h in GE.
  set (n := Z.to_nat J) in *.
  assert (NJ : INR n = IZR J) by (unfold n; rewrite INR_IZR_INZ, Z2Nat.id by lia; easy).
  split.
  { assert (M0 : Z.to_nat (N - 1) <> 0%nat) by lia. apply (layers_last _ (fun v => length v = n) _ _ _ M0) in LY; [exact LY|intros i old new K; apply K]. }
  revert LY. apply layers_within.
  - apply el_within. intros j H. rewrite LO in H. apply (IC (el (cX cf) j)); [|now apply IV].
    rewrite GE by easy. assert (INR j <= INR n - 1) by (change 1 with (INR 1); rewrite <- (minus_INR n 1) by lia; apply le_INR; lia).
    pose proof (pos_INR j). split; [nra|]. rewrite <- HD, <- NJ. nra.
  - intros i old new I LK W.
    assert (TI : 0 <= INR i * dt <= tDom).
    { apply lt_INR in I. rewrite (INR_IZR_INZ (Z.to_nat (N - 1))), Z2Nat.id in I by lia. rewrite minus_IZR in I.
      pose proof (pos_INR i). split; [nra|]. replace tDom with ((IZR N - 1) * dt) by (unfold dt; field; lra). nra. }
    destruct (BD _ TI) as [BL BR].
    apply (explicit_within k dt h (cX cf) n i old new M); auto; try lia; [|rewrite X0; easy|rewrite X1; easy].
    intros j JJ t x. destruct (BS t x) as (D & C & RR & F). rewrite D, C, RR, F.
    assert (XJ : x = INR j * h) by (unfold x; apply GE; lia).
    split; [|split; [lra|split; [easy|]]].
    + rewrite XJ. exact (bs_peclet sigma r c Call 0 0 h 0 j HH ltac:(lia) V).
    + replace (2 * (sigma * sigma * x * x / 2) / (h * h) - - r) with (sigma * sigma * (INR j * INR j) + r)
        by (rewrite XJ; field; lra).
      eapply Rle_trans; [|exact CFL]. apply Rmult_le_compat_l; [lra|]. apply Rplus_le_compat_r.
      apply Rmult_le_compat_l; [nra|].
      assert (0 <= INR j) by apply pos_INR.
      assert (INR j <= IZR J - 2) by (rewrite <- NJ; change 2 with (INR 2); rewrite <- (minus_INR n 2) by lia; apply le_INR; lia).
      apply Rmult_le_compat; lra.
Qed.
Print Assumptions C68_bounds.

(** Vanilla options: a put is worth at most the strike, a call at most the end of the
    grid.  [w0] is the market at construction; the payoff does not read it. *)
Lemma vanilla_initial : forall (o : Option R) w ty K x v, optPayoff o = PVanilla ty K -> ty = Call \/ ty = Put ->
  initialCondition (BlackScholesPDE o) w x = Ok v -> v = match ty with Call => Rmax (x - K) 0 | _ => Rmax (K - x) 0 end.
Proof.
  intros o w ty K x v PO TY E. cbn [initialCondition BlackScholesPDE] in E. unfold option_payoff1 in E. rewrite PO in E.
  destruct TY as [-> | ->]; cbn [payoff1] in E; injection E as <-; unfold nmax; cbn [nltb nsub Rnum]; unfold Rmax;
    change (n0 : R) with 0 in *;
    match goal with |- context [Rlt_bool ?a ?b] => destruct (Rlt_bool_spec a b) end;
    match goal with |- context [Rle_dec ?a ?b] => destruct (Rle_dec a b) end; lra.
Qed.

Theorem C68_vanilla_bounds : forall lu xDom J tDom N (o : Option R) ip sv mem w0 cf s w d ty K,
  (2 <= J < ULONG_MOD)%Z -> (2 <= N < ULONG_MOD)%Z -> 0 < xDom -> 0 < tDom <= optT o ->
  optPayoff o = PVanilla ty K -> 0 <= K ->
  ty = Put \/ (ty = Call /\ K <= xDom) ->
  Fdm_ctor KExplicit xDom J tDom N (BlackScholesPDE o) o ip sv mem w0 = Ok (cf, s) ->
  read (optTicker o) w = Ok d ->
  let sigma := sigma_ d in let r := mR w in let c := dividend d in
  Rabs (r - c) <= sigma * sigma -> 0 <= r ->
  tDom / (IZR N - 1) * (sigma * sigma * ((IZR J - 2) * (IZR J - 2)) + r) <= 1 ->
  exists v s', (forall fuel, (Z.to_nat (N - 1) <= fuel)%nat -> solve lu cf w fuel s = Some (Ok v, s')) /\
    length v = Z.to_nat J /\ within (match ty with Call => xDom | _ => K end) v.
Proof.
  intros lu xDom J tDom N o ip sv mem w0 cf s w d ty K HJ HN HX HT PO HK TY E RD sigma r c V R0 CFL.
  assert (TY' : ty = Call \/ ty = Put) by tauto.
  pose proof (bs_evaluates o w d ty K RD PO TY') as EV.
  apply (C68_bounds lu xDom J tDom N (BlackScholesPDE o) o ip sv mem w0 cf s w _ sigma r c _ HJ HN HX (proj1 HT) E EV); auto.
  - destruct TY as [-> |[-> _]]; lra.
  - intros t T. cbn [kl kg bs_coefs]. destruct TY as [-> |[-> KX]]; [lra|]. split; [lra|].
    assert (0 < exp (- r * (optT o - t)) <= 1).
    { split; [apply exp_pos|]. rewrite <- exp_0. apply exp_le. nra. }
    change (mR w) with r. nra.
  - intros x v X I. apply (vanilla_initial o w0 ty K) in I; auto. subst v.
    destruct TY as [-> |[-> KX]]; unfold Rmax; match goal with |- context [Rle_dec ?a ?b] => destruct (Rle_dec a b) end; lra.
Qed.
Print Assumptions C68_vanilla_bounds.

(** ** C69 *)
(** The least element of a finite family. *)
Lemma argmin : forall (f : nat -> R) n, (0 < n)%nat -> exists j, (j < n)%nat /\ forall i, (i < n)%nat -> f j <= f i.
Proof.
  intros f. induction n as [|n IH]; intros H; [lia|]. destruct (Nat.eq_dec n 0) as [-> |N].
  - exists 0%nat. split; [lia|]. intros i I. replace i with 0%nat by lia. lra.
  - destruct (IH ltac:(lia)) as (j & J & M). destruct (Rle_lt_dec (f j) (f n)) as [L|L].
    + exists j. split; [lia|]. intros i I. destruct (Nat.eq_dec i n) as [-> |D]; [easy|apply M; lia].
    + exists n. split; [lia|]. intros i I. destruct (Nat.eq_dec i n) as [-> |D]; [lra|]. specialize (M i ltac:(lia)). lra.
Qed.

(** The implicit equation at a node, multiplied out: nonnegative weights a and g. *)
Lemma implicit_weights : forall k dt h t xs old new j, 0 < h -> 0 < dt ->
  implicit_eq k dt h t xs old new j ->
  Rabs (kc k t (el xs j)) * h <= 2 * kd k t (el xs j) -> kr k t (el xs j) <= 0 -> kf k t (el xs j) = 0 ->
  exists a g q, 0 <= a /\ 0 <= g /\ 0 <= q /\
    (1 + a + g + q) * el new j = el old j + a * el new (j - 1) + g * el new (j + 1).
Proof.
  intros k dt h t xs old new j HH HT EQ CV RE RF.
  set (x := el xs j) in *. unfold implicit_eq, space_at, space in EQ. fold x in EQ. rewrite RF in EQ.
  exists (dt * (kd k t x / (h * h) - kc k t x / (2 * h))), (dt * (kd k t x / (h * h) + kc k t x / (2 * h))), (- (dt * kr k t x)).
  assert (HC : - (2 * kd k t x) <= kc k t x * h <= 2 * kd k t x).
  { assert (Rabs (kc k t x * h) <= 2 * kd k t x) by (rewrite Rabs_mult, (Rabs_pos_eq h); lra). now apply Rabs_le_inv. }
  split; [|split; [|split]].
  - apply Rmult_le_pos; [lra|].
    replace (kd k t x / (h * h) - kc k t x / (2 * h)) with ((2 * kd k t x - kc k t x * h) / (2 * (h * h))) by (field; lra).
    apply Rmult_le_pos; [lra|]. apply Rlt_le, Rinv_0_lt_compat. nra.
  - apply Rmult_le_pos; [lra|].
    replace (kd k t x / (h * h) + kc k t x / (2 * h)) with ((2 * kd k t x + kc k t x * h) / (2 * (h * h))) by (field; lra).
    apply Rmult_le_pos; [lra|]. apply Rlt_le, Rinv_0_lt_compat. nra.
  - nra.
  - apply (f_equal (fun y => y * dt)) in EQ.
    assert (E : el new j - el old j = (el new j - el old j) / dt * dt) by (field; lra). rewrite EQ in E.
    apply (f_equal (fun y => el new j - y)) in E.
    transitivity (el new j + (el new j - (el new j - (kd k t x * ((el new (j + 1) - 2 * el new j + el new (j - 1)) / (h * h)) +
       kc k t x * ((el new (j + 1) - el new (j - 1)) / (2 * h)) + kr k t x * el new j - 0) * dt)) * -1
       + dt * (kd k t x / (h * h) - kc k t x / (2 * h)) * el new (j - 1) + dt * (kd k t x / (h * h) + kc k t x / (2 * h)) * el new (j + 1)).
    { field. lra. }
    lra.
Qed.

(** The minimum and maximum principle of one implicit layer: no condition on dt. *)
Lemma implicit_within : forall k dt h xs n i old new M,
  0 < h -> 0 < dt -> 0 <= M -> (2 <= n)%nat -> implicit_layer k dt h xs n i old new ->
  (forall j, (1 <= j <= n - 2)%nat -> let t := INR (i + 1) * dt in let x := el xs j in
     Rabs (kc k t x) * h <= 2 * kd k t x /\ kr k t x <= 0 /\ kf k t x = 0) ->
  0 <= kl k (INR (i + 1) * dt) (el xs 0) <= M -> 0 <= kg k (INR (i + 1) * dt) (el xs (n - 1)) <= M ->
  within M old -> within M new.
Proof.
  intros k dt h xs n i old new M HH HT HM HN (LN & B0 & B1 & EQ) C BL BR W.
  set (t := INR (i + 1) * dt) in *. apply el_within. rewrite LN.
  assert (WT : forall j, (1 <= j <= n - 2)%nat -> exists a g q, 0 <= a /\ 0 <= g /\ 0 <= q /\
    (1 + a + g + q) * el new j = el old j + a * el new (j - 1) + g * el new (j + 1)).
  { intros j J. destruct (C j J) as (CV & RE & RF). apply (implicit_weights k dt h t xs old new j); auto. }
  assert (LOW : forall j, (j < n)%nat -> 0 <= el new j).
  { destruct (argmin (el new) n ltac:(lia)) as (j & J & MIN). intros i' I'. eapply Rle_trans; [|now apply MIN].
    destruct (Nat.eq_dec j 0) as [-> |J0]; [rewrite B0; lra|].
    destruct (Nat.eq_dec j (n - 1)) as [-> |J1]; [rewrite B1; lra|].
    destruct (WT j ltac:(lia)) as (a & g & q & A & G & Q & E).
    pose proof (MIN (j - 1)%nat ltac:(lia)) as M1. pose proof (MIN (j + 1)%nat ltac:(lia)) as M2.
    pose proof (within_el M old j W HM) as O.
    assert ((1 + q) * el new j >= el old j) by nra. nra. }
  destruct (argmin (fun j => - el new j) n ltac:(lia)) as (j & J & MAX). intros i' I'. split; [now apply LOW|].
  apply Rle_trans with (el new j); [specialize (MAX i' I'); lra|].
  destruct (Nat.eq_dec j 0) as [-> |J0]; [rewrite B0; lra|].
  destruct (Nat.eq_dec j (n - 1)) as [-> |J1]; [rewrite B1; lra|].
  destruct (WT j ltac:(lia)) as (a & g & q & A & G & Q & E).
  pose proof (MAX (j - 1)%nat ltac:(lia)) as M1. pose proof (MAX (j + 1)%nat ltac:(lia)) as M2.
  pose proof (within_el M old j W HM) as O. pose proof (LOW j J) as P.
  assert ((1 + q) * el new j <= el old j) by nra. nra.
Qed.

(** The equations and the boundary values determine the layer. *)
Lemma implicit_unique : forall k dt h xs n i old new new',
  0 < h -> 0 < dt -> (2 <= n)%nat ->
  (forall j, (1 <= j <= n - 2)%nat -> let t := INR (i + 1) * dt in let x := el xs j in
     Rabs (kc k t x) * h <= 2 * kd k t x /\ kr k t x <= 0) ->
  implicit_layer k dt h xs n i old new -> implicit_layer k dt h xs n i old new' -> new = new'.
Proof.
  intros k dt h xs n i old new new' HH HT HN C (LN & B0 & B1 & EQ) (LN' & B0' & B1' & EQ').
  set (t := INR (i + 1) * dt) in *.
  set (k0 := mkCoefs (kd k) (kc k) (kr k) (fun _ _ => 0) (fun _ _ => 0) (fun _ _ => 0)).
  set (d := map (fun j => el new j - el new' j) (seq 0 n)).
  assert (ED : forall j, (j < n)%nat -> el d j = el new j - el new' j).
  { intros j J. unfold d. rewrite <- at_el. now rewrite at_map_seq. }
  assert (Z : within 0 d).
  { apply (implicit_within k0 dt h xs n i (repeat 0 n) d 0); auto; try lra.
    - split; [unfold d; now rewrite map_length, seq_length|]. split; [rewrite ED by lia; cbn; lra|].
      split; [rewrite ED by lia; cbn; lra|]. intros j J. unfold implicit_eq. rewrite ED by lia.
      assert (R0 : el (repeat 0 n) j = 0) by (unfold el; apply nth_repeat). rewrite R0.
      specialize (EQ j J). specialize (EQ' j J). unfold implicit_eq in EQ, EQ'. fold t.
      transitivity ((el new j - el old j) / dt - (el new' j - el old j) / dt); [field; lra|]. rewrite EQ, EQ'.
      unfold space_at, space. rewrite !ED by lia. cbn [kd kc kr kf k0]. field. lra.
    - intros j J. destruct (C j J) as (CV & RE). cbn. auto.
    - cbn. lra.
    - cbn. lra.
    - apply el_within. intros j _. replace (el (repeat 0 n) j) with 0; [lra|]. unfold el. symmetry. apply nth_repeat. }
  apply (list_at new new'); [congruence|]. intros j J. change (@at_ R Rnum) with el. pose proof (within_el 0 d j Z ltac:(lra)) as D.
  rewrite ED in D by lia. lra.
Qed.

(** *** The linear systems *)
Lemma nth_map_seq : forall A (f : nat -> A) n i d, (i < n)%nat -> nth i (map f (seq 0 n)) d = f i.
Proof.
  intros A f n i d H. rewrite (nth_indep _ d (f 0%nat)) by (rewrite map_length, seq_length; lia).
  rewrite map_nth, seq_nth by lia. reflexivity.
Qed.
Lemma tri_entry : forall (al be ga : nat -> R) n m i j, (i < n - 2)%nat -> (j < n - 2)%nat -> (i < m)%nat ->
  entry (tri n m al be ga) i j =
  if Nat.eqb (j + 1) i then al (i + 1)%nat else if Nat.eqb j i then be (i + 1)%nat
  else if Nat.eqb j (i + 1) then ga (i + 1)%nat else 0.
Proof.
  intros al be ga n m i j I J M. unfold entry, tri.
  rewrite nth_map_seq by lia. unfold el. rewrite nth_map_seq by lia.
  destruct (Nat.ltb_spec i m); [easy|lia].
Qed.
Lemma tri_square : forall (al be ga : nat -> R) n m, square (n - 2) (tri n m al be ga).
Proof.
  intros al be ga n m. unfold tri. split; [now rewrite map_length, seq_length|].
  apply Forall_forall. intros row I. apply in_map_iff in I as (i & <- & _). now rewrite map_length, seq_length.
Qed.
Lemma square_out : forall n A i j, square n A -> (n <= i \/ n <= j)%nat -> entry A i j = 0.
Proof.
  intros n A i j [L F] H. unfold entry, el. destruct (lt_dec i n) as [I|I].
  - rewrite nth_overflow; [easy|]. rewrite Forall_forall in F. rewrite (F (nth i A [])); [lia|]. apply nth_In. lia.
  - rewrite (nth_overflow A) by lia. destruct j; easy.
Qed.
Lemma tri_tridiagonal : forall (al be ga : nat -> R) n m, (n - 2 <= m)%nat -> tridiagonal (tri n m al be ga).
Proof.
  intros al be ga n m H i j D. destruct (lt_dec i (n - 2)) as [I|I]; [|apply (square_out (n - 2)); [apply tri_square|lia]].
  destruct (lt_dec j (n - 2)) as [J|J]; [|apply (square_out (n - 2)); [apply tri_square|lia]].
  rewrite tri_entry by lia. destruct (Nat.eqb_spec (j + 1) i), (Nat.eqb_spec j i), (Nat.eqb_spec j (i + 1)); try lia; easy.
Qed.

(** A row of the product and the dominance of a row. *)
Lemma tri_row : forall (al be ga : nat -> R) n x i, (i < n - 2)%nat ->
  Rsum (n - 2) (fun j => entry (tri n (n - 2) al be ga) i j * el x j) =
  (if Nat.eqb i 0 then 0 else al (i + 1)%nat * el x (i - 1)) + be (i + 1)%nat * el x i +
  (if Nat.eqb (i + 1) (n - 2) then 0 else ga (i + 1)%nat * el x (i + 1)).
Proof.
  intros al be ga n x i I. rewrite (Rsum_near (n - 2) i) by (auto; intros j D; rewrite (tri_tridiagonal al be ga n (n - 2)) by lia; ring).
  f_equal; [f_equal|].
  - destruct i as [|i]; [easy|]. rewrite tri_entry by lia.
    destruct (Nat.eqb_spec (i + 1) (Datatypes.S i)); [|lia]. cbn [Nat.eqb]. do 2 f_equal. lia.
  - rewrite tri_entry by lia. destruct (Nat.eqb_spec (i + 1) i); [lia|]. now rewrite Nat.eqb_refl.
  - destruct (Nat.eqb_spec (i + 1) (n - 2)); [easy|]. rewrite tri_entry by lia.
    destruct (Nat.eqb_spec (i + 1 + 1) i); [lia|]. destruct (Nat.eqb_spec (i + 1) i); [lia|]. now rewrite Nat.eqb_refl.
Qed.
Lemma tri_dominant : forall (al be ga : nat -> R) n,
  (forall j, (1 <= j <= n - 2)%nat -> Rabs (al j) + Rabs (ga j) < Rabs (be j)) -> dominant (n - 2) (tri n (n - 2) al be ga).
Proof.
  intros al be ga n H i I. specialize (H (i + 1)%nat ltac:(lia)).
  pose proof (Rabs_pos (al (i + 1)%nat)). pose proof (Rabs_pos (ga (i + 1)%nat)).
  assert (DD : entry (tri n (n - 2) al be ga) i i = be (i + 1)%nat).
  { rewrite tri_entry by lia. destruct (Nat.eqb_spec (i + 1) i); [lia|]. now rewrite Nat.eqb_refl. }
  rewrite DD. eapply Rle_lt_trans; [|exact H].
  rewrite (Rsum_near (n - 2) i); [|easy|].
  2:{ intros j D. destruct (Nat.eqb_spec i j); [easy|]. rewrite (tri_tridiagonal al be ga n (n - 2)) by lia. apply Rabs_R0. }
  rewrite Nat.eqb_refl.
  assert (A : match i with O => 0 | Datatypes.S i' => if Nat.eqb i i' then 0 else Rabs (entry (tri n (n - 2) al be ga) i i') end
              <= Rabs (al (i + 1)%nat)).
  { destruct i as [|i]; [lra|]. destruct (Nat.eqb_spec (Datatypes.S i) i); [lia|]. rewrite tri_entry by lia.
    destruct (Nat.eqb_spec (i + 1) (Datatypes.S i)); [lra|lia]. }
  assert (G : (if Nat.eqb (i + 1) (n - 2) then 0 else if Nat.eqb i (i + 1) then 0 else Rabs (entry (tri n (n - 2) al be ga) i (i + 1)))
              <= Rabs (ga (i + 1)%nat)).
  { destruct (Nat.eqb_spec (i + 1) (n - 2)); [lra|]. destruct (Nat.eqb_spec i (i + 1)); [lra|]. rewrite tri_entry by lia.
    destruct (Nat.eqb_spec (i + 1 + 1) i); [lia|]. destruct (Nat.eqb_spec (i + 1) i); [lia|]. rewrite Nat.eqb_refl. lra. }
  lra.
Qed.

(** A matrix solver that solves diagonally dominant tridiagonal systems. *)
Definition exact_solver (lu : LuAlg R) (sv : MatrixSolver R) : Prop :=
  forall n A b, (2 <= n)%nat -> (Z.of_nat n - 2 <= INT_MAX)%Z -> square n A -> tridiagonal A -> length b = n -> dominant n A ->
  exists x, matrix_solve lu sv A b = Ok x /\ solves n A x b.
Lemma thomas_exact : forall lu, exact_solver lu ThomasAlgorithm.
Proof.
  intros lu n A b N MX SQ TR LB D. destruct (C59_dominant n A b N MX SQ TR LB D) as (x & E & S & _). exists x. auto.
Qed.

(** A step whose linear system is solved. *)
Lemma implicit_step_solved : forall lu (cf : Conf R) w k n s sv sol,
  cScheme cf = EulerImplicit sv -> evaluates (cPde cf) w k -> sized cf s n -> (3 <= n)%nat ->
  0 < cDx cf -> 0 < cDt cf -> cDx2 cf = cDx cf * cDx cf ->
  matrix_solve lu sv (i_matrix cf k n s) (i_rhs cf k n s) = Ok sol ->
  solves (n - 2) (i_matrix cf k n s) sol (i_rhs cf k n s) ->
  let t := fTPrev s + cDt cf in
  exists s', time_step lu cf w s = (Ok tt, s') /\ fOld s' = fNew s' /\ length (fNew s') = n /\
    el (fNew s') 0 = kl k t (el (cX cf) 0) /\
    el (fNew s') (n - 1) = kg k t (el (cX cf) (n - 1)) /\
    forall j, (1 <= j <= n - 2)%nat -> implicit_eq k (cDt cf) (cDx cf) t (cX cf) (fOld s) (fNew s') j.
Proof.
  intros lu cf w k n s sv sol SC EV SZ H DX DT D2 E (LS & SO) t.
  set (A := i_matrix cf k n s) in *. set (b := i_rhs cf k n s) in *.
  assert (BT : boundary_time cf (moved cf s) = t) by (unfold boundary_time; now rewrite SC).
  eexists. split; [apply (implicit_step lu cf w k n EV s sv sol SC SZ ltac:(lia) E LS)|].
  cbn [fOld fNew]. split; [easy|]. split; [unfold with_ends; now rewrite map_length, seq_length|].
  assert (EL : forall j, (j < n)%nat -> el (with_ends cf k n s sol) j =
    if Nat.eqb j 0 then kl k t (el (cX cf) 0) else if Nat.eqb j (n - 1) then kg k t (el (cX cf) (n - 1)) else el sol (j - 1)).
  { intros j J. unfold with_ends. rewrite <- at_el. rewrite at_map_seq by easy. unfold left_value, right_value. now rewrite BT. }
  split; [rewrite EL by lia; easy|]. split.
  { rewrite EL by lia. rewrite Nat.eqb_refl. destruct (Nat.eqb_spec (n - 1) 0); [lia|easy]. }
  intros j J. specialize (SO (j - 1)%nat ltac:(lia)). unfold A, i_matrix in SO. rewrite tri_row in SO by lia.
  change (nadd (fTPrev s) (cDt cf)) with t in SO. replace (j - 1 + 1)%nat with j in SO by lia.
  assert (RB : el b (j - 1) = i_b cf k n s t j).
  { unfold b, i_rhs. change (nadd (fTPrev s) (cDt cf)) with t. rewrite <- seq_shift, map_map.
    rewrite <- at_el, at_map_seq by lia. f_equal. lia. }
  rewrite RB in SO. unfold i_b in SO. cbn zeta in SO.
  assert (P : i_al cf k t j * el (with_ends cf k n s sol) (j - 1) + i_be cf k t j * el (with_ends cf k n s sol) j
              + i_ga cf k t j * el (with_ends cf k n s sol) (j + 1) = cDx2 cf * (cDt cf * kf k t (el (cX cf) j) - el (fOld s) j)).
  { rewrite !EL by lia. unfold left_value, right_value in SO. rewrite BT in SO.
    change (@at_ R Rnum) with el in SO. cbn [nsub nmul Rnum] in SO.
    destruct (Nat.eqb_spec (j - 1) 0), (Nat.eqb_spec j 1), (Nat.eqb_spec j (n - 2)), (Nat.eqb_spec j 0), (Nat.eqb_spec j (n - 1)),
      (Nat.eqb_spec (j - 1) (n - 1)), (Nat.eqb_spec (j + 1) 0), (Nat.eqb_spec (j + 1) (n - 1)); try lia;
      replace (j + 1 - 1)%nat with j by lia; lra. }
  set (u := with_ends cf k n s sol) in *. clearbody u.
  unfold i_al, i_be, i_ga in P. rewrite half_half, two_two, D2 in P. cbn [nadd nsub nmul nopp Rnum] in P.
  change (@at_ R Rnum) with el in P. unfold implicit_eq, space_at, space.
  set (x := el (cX cf) j) in *. set (dt := cDt cf) in *. set (h := cDx cf) in *.
  apply (Rmult_eq_reg_r (dt * (h * h))); [|apply Rgt_not_eq; apply Rmult_lt_0_compat; nra].
  transitivity ((el u j - el (fOld s) j) * (h * h)); [field; lra|].
  transitivity (dt * kd k t x * (el u (j + 1) - 2 * el u j + el u (j - 1)) + / 2 * dt * h * kc k t x * (el u (j + 1) - el u (j - 1))
     + dt * (h * h) * kr k t x * el u j - dt * (h * h) * kf k t x); [lra|field; lra].
Qed.

Theorem C69_step : forall lu (cf : Conf R) w k n s sv,
  cScheme cf = EulerImplicit sv -> exact_solver lu sv -> evaluates (cPde cf) w k -> sized cf s n -> (4 <= n)%nat ->
  (Z.of_nat n - 4 <= INT_MAX)%Z -> 0 < cDx cf -> 0 < cDt cf -> cDx2 cf = cDx cf * cDx cf ->
  let t := fTPrev s + cDt cf in stable k (cDx cf) (cX cf) n t ->
  exists s', time_step lu cf w s = (Ok tt, s') /\ fOld s' = fNew s' /\ length (fNew s') = n /\
    el (fNew s') 0 = kl k t (el (cX cf) 0) /\
    el (fNew s') (n - 1) = kg k t (el (cX cf) (n - 1)) /\
    forall j, (1 <= j <= n - 2)%nat -> implicit_eq k (cDt cf) (cDx cf) t (cX cf) (fOld s) (fNew s') j.
Proof.
  intros lu cf w k n s sv SC EX EV SZ H MX DX DT D2 t ST.
  set (A := i_matrix cf k n s). set (b := i_rhs cf k n s).
  assert (AB : forall j, (1 <= j <= n - 2)%nat -> Rabs (i_al cf k t j) + Rabs (i_ga cf k t j) < Rabs (i_be cf k t j)).
  { intros j J. destruct (ST j J) as [CV RE]. set (x := el (cX cf) j) in *.
    unfold i_al, i_ga, i_be. rewrite half_half, two_two, D2. cbn [nadd nsub nmul nopp Rnum]. change (at_ (cX cf) j) with x.
    assert (HC : - (2 * kd k t x) <= kc k t x * cDx cf <= 2 * kd k t x).
    { assert (Rabs (kc k t x * cDx cf) <= 2 * kd k t x) by (rewrite Rabs_mult, (Rabs_pos_eq (cDx cf)); lra). now apply Rabs_le_inv. }
    set (h := cDx cf) in *. set (dt := cDt cf) in *.
    assert (0 < h * h) by nra.
    rewrite (Rabs_pos_eq (dt * kd k t x - / 2 * dt * h * kc k t x)) by nra.
    rewrite (Rabs_pos_eq (dt * kd k t x + / 2 * dt * h * kc k t x)) by nra.
    assert (0 <= dt * kd k t x) by nra.
    assert (0 <= - (dt * (h * h) * kr k t x)) by (rewrite Ropp_mult_distr_r; apply Rmult_le_pos; [nra|lra]).
    rewrite (Rabs_left1 (- (h * h) - 2 * (dt * kd k t x) + dt * (h * h) * kr k t x)) by lra. lra. }
  destruct (EX (n - 2)%nat A b) as (sol & E & SO); try lia.
  { apply tri_square. } { apply tri_tridiagonal. lia. } { unfold b, i_rhs. now rewrite map_length, seq_length. }
  { now apply tri_dominant. }
  now apply (implicit_step_solved lu cf w k n s sv sol SC EV SZ ltac:(lia) DX DT D2 E).
Qed.
Print Assumptions C69_step.

(** Times and nodes of a constructed solver. *)
Lemma ctor_facts : forall k xDom J tDom N p o ip sv mem w (cf : Conf R) s,
  (2 <= J < ULONG_MOD)%Z -> (2 <= N < ULONG_MOD)%Z -> 0 < xDom -> 0 < tDom ->
  Fdm_ctor k xDom J tDom N p o ip sv mem w = Ok (cf, s) ->
  cScheme cf = scheme_of k sv /\ cPde cf = p /\ cDx cf = xDom / (IZR J - 1) /\ cDt cf = tDom / (IZR N - 1) /\
  0 < cDx cf /\ 0 < cDt cf /\ cDx2 cf = cDx cf * cDx cf /\ sized cf s (Z.to_nat J) /\
  (forall i, (i < Z.to_nat (N - 1))%nat -> 0 <= INR i * cDt cf <= tDom /\ 0 <= INR (i + 1) * cDt cf <= tDom).
Proof.
  intros k xDom J tDom N p o ip sv mem w cf s HJ HN HX HT E. assert (J0 : (0 <= J)%Z) by lia.
  assert (SZ : sized cf s (Z.to_nat J)) by (eapply ctor_sized; [|exact E]; lia).
  destruct (ctor_ok _ _ _ _ _ _ _ _ _ _ _ _ _ _ _ J0 E) as (SC & _ & _ & TD & _ & EP & _ & _ & DX & D2 & DT & _).
  cbn [ndiv nofZ Rnum] in DX, DT. rewrite ulsub_small, minus_IZR in DX, DT by lia. cbn [nmul Rnum] in D2.
  assert (PN : 0 < IZR N - 1) by (assert (2 <= IZR N) by (apply IZR_le; lia); lra).
  assert (PJ : 0 < IZR J - 1) by (assert (2 <= IZR J) by (apply IZR_le; lia); lra).
  assert (DX0 : 0 < cDx cf) by (rewrite DX; now apply Rdiv_lt_0_compat).
  assert (DT0 : 0 < cDt cf) by (rewrite DT; now apply Rdiv_lt_0_compat).
  repeat (split; [easy|]). intros i I.
  assert (I' : INR (i + 1) <= IZR N - 1).
  { rewrite <- minus_IZR, <- (Z2Nat.id (N - 1)), <- INR_IZR_INZ by lia. apply le_INR. lia. }
  rewrite plus_INR in *. change (INR 1) with 1 in *. pose proof (pos_INR i) as P.
  replace tDom with ((IZR N - 1) * cDt cf) by (rewrite DT; field; lra). split; split; nra.
Qed.

(** A whole run with the Thomas solver: N-1 implicit layers that start at the payoff, each
    determined by its equations. *)
Theorem C69_run : forall lu xDom J tDom N p o ip mem w0 (cf : Conf R) s w k,
  (4 <= J < ULONG_MOD)%Z -> (J - 4 <= INT_MAX)%Z -> (2 <= N < ULONG_MOD)%Z -> 0 < xDom -> 0 < tDom ->
  Fdm_ctor KImplicit xDom J tDom N p o ip (Some ThomasAlgorithm) mem w0 = Ok (cf, s) -> evaluates p w k ->
  (forall t, 0 <= t <= tDom -> stable k (xDom / (IZR J - 1)) (cX cf) (Z.to_nat J) t) ->
  let m := Z.to_nat (N - 1) in
  let link := implicit_layer k (tDom / (IZR N - 1)) (xDom / (IZR J - 1)) (cX cf) (Z.to_nat J) in
  exists v s', (forall fuel, (m <= fuel)%nat -> solve lu cf w fuel s = Some (Ok v, s')) /\
    layers link (fOld s) m v /\ (forall v', layers link (fOld s) m v' -> v' = v).
Proof.
  intros lu xDom J tDom N p o ip mem w0 cf s w k HJ MX HN HX HT E EV STB m link.
  assert (HJ' : (2 <= J < ULONG_MOD)%Z) by lia. assert (J0 : (0 <= J)%Z) by lia.
  destruct (ctor_facts _ _ _ _ _ _ _ _ _ _ _ _ _ HJ' HN HX HT E) as (SC & EP & DX & DT & DX0 & DT0 & D2 & SZ0 & TI).
  unfold link. rewrite <- DX, <- DT. rewrite <- DX in STB. rewrite <- EP in EV. cbn [scheme_of] in SC.
  destruct (C67_exact lu _ _ _ _ _ _ _ _ _ _ _ _ _ HN HT J0 E) as (_ & RUN & CL).
  assert (G : forall i, (i <= m)%nat -> exists s1, steps lu cf w i s s1 /\ sized cf s1 (Z.to_nat J) /\ (i <> 0%nat -> fOld s1 = fNew s1) /\
              layers (implicit_layer k (cDt cf) (cDx cf) (cX cf) (Z.to_nat J)) (fOld s) i (fOld s1)).
  { induction i as [|i IH]; intros I.
    - exists s. repeat split; try apply SZ0; [constructor|lia|constructor].
    - destruct (IH ltac:(lia)) as (s1 & ST & SZ & _ & LY).
      pose proof (CL _ _ _ ST) as TPI. rewrite <- DT in TPI.
      assert (TN : fTPrev s1 + cDt cf = INR (i + 1) * cDt cf) by (rewrite TPI, plus_INR; cbn; ring).
      destruct (C69_step lu cf w k (Z.to_nat J) s1 ThomasAlgorithm SC (thomas_exact lu) EV SZ ltac:(lia) ltac:(lia) DX0 DT0 D2)
        as (s2 & E2 & ON & L2 & B0 & B1 & EQ).
      { rewrite TN. apply STB. now apply TI. }
      rewrite TN in B0, B1, EQ.
      exists s2. split; [eapply steps_add1; eauto|]. split; [eapply sized_step; eauto|]. split; [easy|].
      econstructor; [exact LY|]. unfold implicit_layer. rewrite ON. repeat split; auto. }
  destruct (G m ltac:(lia)) as (s1 & ST & _ & ON & LY). rewrite ON in LY by (unfold m; lia).
  exists (fNew s1), (finished s1). split; [intros fuel F; now apply RUN|]. split; [easy|].
  assert (U : forall i v v', (i <= m)%nat -> layers (implicit_layer k (cDt cf) (cDx cf) (cX cf) (Z.to_nat J)) (fOld s) i v ->
    layers (implicit_layer k (cDt cf) (cDx cf) (cX cf) (Z.to_nat J)) (fOld s) i v' -> v' = v).
  { induction i as [|i IH]; intros v v' I L L'.
    - inversion L; inversion L'. congruence.
    - inversion L as [|? u ? LU K]; inversion L' as [|? u' ? LU' K']; subst.
      assert (EU : u' = u) by (apply IH; auto; lia). subst u'.
      apply (implicit_unique k (cDt cf) (cDx cf) (cX cf) (Z.to_nat J) i u v' v); auto; [lia|].
      intros j JJ. apply STB; [|easy]. apply TI. lia. }
  intros v'. now apply U.
Qed.
Print Assumptions C69_run.

(** Prices stay between 0 and M, with no condition on the time step. *)
Theorem C69_bounds : forall lu xDom J tDom N p o ip mem w0 (cf : Conf R) s w k sigma r c M,
  (4 <= J < ULONG_MOD)%Z -> (J - 4 <= INT_MAX)%Z -> (2 <= N < ULONG_MOD)%Z -> 0 < xDom -> 0 < tDom ->
  Fdm_ctor KImplicit xDom J tDom N p o ip (Some ThomasAlgorithm) mem w0 = Ok (cf, s) -> evaluates p w k ->
  (forall t x, kd k t x = sigma * sigma * x * x / 2 /\ kc k t x = (r - c) * x /\ kr k t x = - r /\ kf k t x = 0) ->
  Rabs (r - c) <= sigma * sigma -> 0 <= r -> 0 <= M ->
  (forall t, 0 <= t <= tDom -> 0 <= kl k t 0 <= M /\ 0 <= kg k t xDom <= M) ->
  (forall x v, 0 <= x <= xDom -> initialCondition p w0 x = Ok v -> 0 <= v <= M) ->
  exists v s', (forall fuel, (Z.to_nat (N - 1) <= fuel)%nat -> solve lu cf w fuel s = Some (Ok v, s')) /\
    length v = Z.to_nat J /\ within M v.
Proof.
  intros lu xDom J tDom N p o ip mem w0 cf s w k sigma r c M HJ MX HN HX HT E EV BS V R0 HM BD IC.
  assert (HJ' : (2 <= J < ULONG_MOD)%Z) by lia.
  destruct (ctor_facts _ _ _ _ _ _ _ _ _ _ _ _ _ HJ' HN HX HT E) as (SC & EP & DX & DT & DX0 & DT0 & D2 & SZ0 & TI).
  destruct (C66_grid _ _ _ _ _ _ _ _ _ _ _ _ _ HJ' HX E) as (LX & X0 & X1 & INC & _ & LO & IV).
  pose proof (grid_el _ _ _ _ _ _ _ _ _ _ _ _ _ HJ' E) as GE. rewrite <- DX in GE.
  assert (COND : forall t j, (1 <= j <= Z.to_nat J - 2)%nat -> let x := el (cX cf) j in
     Rabs (kc k t x) * cDx cf <= 2 * kd k t x /\ kr k t x <= 0 /\ kf k t x = 0).
  { intros t j JJ x. destruct (BS t x) as (D & C & RR & F). rewrite D, C, RR, F.
    assert (XJ : x = INR j * cDx cf) by (unfold x; apply GE; lia). split; [|split; [lra|easy]].
    rewrite XJ. exact (bs_peclet sigma r c Call 0 0 (cDx cf) 0 j DX0 ltac:(lia) V). }
  destruct (C69_run lu _ _ _ _ _ _ _ _ _ _ _ w k HJ MX HN HX HT E EV) as (v & s' & SO & LY & _).
  { intros t T j JJ. rewrite <- DX. destruct (COND t j JJ) as (A & B & _). split; easy. }
  rewrite <- DX, <- DT in LY. exists v, s'. split; [easy|]. split.
  { assert (M0 : Z.to_nat (N - 1) <> 0%nat) by lia.
    apply (layers_last _ (fun v => length v = Z.to_nat J) _ _ _ M0) in LY; [exact LY|intros i old new K; apply K]. }
  revert LY. apply layers_within.
  - apply el_within. intros j H. rewrite LO in H. apply (IC (el (cX cf) j)); [|now apply IV].
    assert (PJ : 0 < IZR J - 1) by (assert (4 <= IZR J) by (apply IZR_le; lia); lra).
    assert (NJ : INR (Z.to_nat J) = IZR J) by (rewrite INR_IZR_INZ, Z2Nat.id by lia; easy).
    rewrite GE by easy. assert (INR j <= IZR J - 1) by (rewrite <- NJ; change 1 with (INR 1); rewrite <- (minus_INR _ 1) by lia; apply le_INR; lia).
    assert (HD : cDx cf * (IZR J - 1) = xDom) by (rewrite DX; field; lra).
    pose proof (pos_INR j). split; nra.
  - intros i old new I LK W. destruct (TI i I) as [_ TT]. destruct (BD _ TT) as [BL BR].
    apply (implicit_within k (cDt cf) (cDx cf) (cX cf) (Z.to_nat J) i old new M); auto; try lia; rewrite ?X0, ?X1; auto. intros j JJ. now apply COND.
Qed.
Print Assumptions C69_bounds.

Theorem C69_vanilla_bounds : forall lu xDom J tDom N (o : Option R) ip mem w0 cf s w d ty K,
  (4 <= J < ULONG_MOD)%Z -> (J - 4 <= INT_MAX)%Z -> (2 <= N < ULONG_MOD)%Z -> 0 < xDom -> 0 < tDom <= optT o ->
  optPayoff o = PVanilla ty K -> 0 <= K ->
  ty = Put \/ (ty = Call /\ K <= xDom) ->
  Fdm_ctor KImplicit xDom J tDom N (BlackScholesPDE o) o ip (Some ThomasAlgorithm) mem w0 = Ok (cf, s) ->
  read (optTicker o) w = Ok d ->
  let sigma := sigma_ d in let r := mR w in let c := dividend d in
  Rabs (r - c) <= sigma * sigma -> 0 <= r ->
  exists v s', (forall fuel, (Z.to_nat (N - 1) <= fuel)%nat -> solve lu cf w fuel s = Some (Ok v, s')) /\
    length v = Z.to_nat J /\ within (match ty with Call => xDom | _ => K end) v.
Proof.
  intros lu xDom J tDom N o ip mem w0 cf s w d ty K HJ MX HN HX HT PO HK TY E RD sigma r c V R0.
  assert (TY' : ty = Call \/ ty = Put) by tauto.
  pose proof (bs_evaluates o w d ty K RD PO TY') as EV.
  apply (C69_bounds lu xDom J tDom N (BlackScholesPDE o) o ip mem w0 cf s w _ sigma r c _ HJ MX HN HX (proj1 HT) E EV); auto.
  - destruct TY as [-> |[-> _]]; lra.
  - intros t T. cbn [kl kg bs_coefs]. destruct TY as [-> |[-> KX]]; [lra|]. split; [lra|].
    assert (0 < exp (- r * (optT o - t)) <= 1).
    { split; [apply exp_pos|]. rewrite <- exp_0. apply exp_le. nra. }
    change (mR w) with r. nra.
  - intros x v X I. apply (vanilla_initial o w0 ty K) in I; auto. subst v.
    destruct TY as [-> |[-> KX]]; unfold Rmax; match goal with |- context [Rle_dec ?a ?b] => destruct (Rle_dec a b) end; lra.
Qed.
Print Assumptions C69_vanilla_bounds.

(** ** C70 *)
Lemma zero_ends_el : forall n u j, (j < n)%nat ->
  el (zero_ends n u) j = if (Nat.eqb j 0 || Nat.eqb j (n - 1))%bool then 0 else el u j.
Proof. intros n u j H. unfold zero_ends, el at 1. now rewrite nth_map_seq. Qed.

(** What a step of the code computes: the Crank-Nicolson equations with the old boundary
    values replaced by 0. *)
Lemma cn_step_solved : forall lu (cf : Conf R) w k n s sol,
  cScheme cf = CrankNicolson ThomasAlgorithm -> evaluates (cPde cf) w k -> sized cf s n -> (4 <= n)%nat ->
  length (fB s) = (n - 2)%nat -> (Z.of_nat n - 4 <= INT_MAX)%Z ->
  0 < cDx cf -> 0 < cDt cf -> cDx2 cf = cDx cf * cDx cf ->
  thomas (c_matrix cf k n s (n - 2)) (b_upto cf k n s (n - 2)) = Ok sol ->
  solves (n - 2) (c_matrix cf k n s (n - 2)) sol (b_upto cf k n s (n - 2)) ->
  let t := fTPrev s in let t' := fTPrev s + cDt cf in
  exists s', time_step lu cf w s = (Ok tt, s') /\ fOld s' = fNew s' /\ length (fNew s') = n /\ length (fB s') = (n - 2)%nat /\
    el (fNew s') 0 = kl k t' (el (cX cf) 0) /\
    el (fNew s') (n - 1) = kg k t' (el (cX cf) (n - 1)) /\
    forall j, (1 <= j <= n - 2)%nat -> cn_eq k (cDt cf) (cDx cf) t t' (cX cf) (zero_ends n (fOld s)) (fNew s') j.
Proof.
  intros lu cf w k n s sol SC EV SZ H LB MX DX DT D2 E (LS & SO) t t'.
  assert (BT : boundary_time cf (moved cf s) = t') by (unfold boundary_time; now rewrite SC).
  set (sols := fun m => solution (c_matrix cf k n s m) (b_upto cf k n s m) (n - 2)).
  assert (LU : forall m, length (b_upto cf k n s m) = (n - 2)%nat) by (intros m; unfold b_upto; now rewrite map_length, seq_length).
  assert (SOLS : forall m, (1 <= m <= n - 2)%nat ->
     matrix_solve lu ThomasAlgorithm (c_matrix cf k n s m) (b_upto cf k n s m) = Ok (sols m) /\ length (sols m) = (n - 2)%nat).
  { intros m M. split.
    - cbn [matrix_solve]. apply thomas_eq; auto; try lia. apply tri_square.
    - unfold sols, solution. now rewrite map_length, seq_length. }
  assert (ES : sols (n - 2)%nat = sol).
  { destruct (SOLS (n - 2)%nat ltac:(lia)) as [E' _]. cbn [matrix_solve] in E'. congruence. }
  eexists. split; [apply (cn_step lu cf w k n EV s ThomasAlgorithm sols SC SZ ltac:(lia) LB SOLS)|].
  cbn [fOld fNew fB]. rewrite ES. split; [easy|]. split; [unfold with_ends; now rewrite map_length, seq_length|].
  split; [apply LU|].
  assert (EL : forall j, (j < n)%nat -> el (with_ends cf k n s sol) j =
    if Nat.eqb j 0 then kl k t' (el (cX cf) 0) else if Nat.eqb j (n - 1) then kg k t' (el (cX cf) (n - 1)) else el sol (j - 1)).
  { intros j J. unfold with_ends. rewrite <- at_el. rewrite at_map_seq by easy. unfold left_value, right_value. now rewrite BT. }
  split; [rewrite EL by lia; easy|]. split.
  { rewrite EL by lia. rewrite Nat.eqb_refl. destruct (Nat.eqb_spec (n - 1) 0); [lia|easy]. }
  intros j J. specialize (SO (j - 1)%nat ltac:(lia)). unfold c_matrix in SO. rewrite tri_row in SO by lia.
  change (nadd (fTPrev s) (cDt cf)) with t' in SO. replace (j - 1 + 1)%nat with j in SO by lia.
  assert (RB : el (b_upto cf k n s (n - 2)) (j - 1) = c_b cf k n s t' j).
  { unfold b_upto. change (nadd (fTPrev s) (cDt cf)) with t'. unfold el. rewrite nth_map_seq by lia.
    destruct (Nat.ltb_spec (j - 1) (n - 2)); [|lia]. f_equal. lia. }
  rewrite RB in SO. unfold c_b, c_b0 in SO. cbn zeta in SO.
  set (z := zero_ends n (fOld s)).
  assert (Z0 : el z j = el (fOld s) j).
  { unfold z. rewrite zero_ends_el by lia. destruct (Nat.eqb_spec j 0), (Nat.eqb_spec j (n - 1)); try lia; easy. }
  assert (Z1 : el z (j - 1) = if Nat.ltb 1 j then el (fOld s) (j - 1) else 0).
  { unfold z. rewrite zero_ends_el by lia.
    destruct (Nat.eqb_spec (j - 1) 0), (Nat.eqb_spec (j - 1) (n - 1)), (Nat.ltb_spec 1 j); try lia; easy. }
  assert (Z2 : el z (j + 1) = if Nat.ltb j (n - 2) then el (fOld s) (j + 1) else 0).
  { unfold z. rewrite zero_ends_el by lia.
    destruct (Nat.eqb_spec (j + 1) 0), (Nat.eqb_spec (j + 1) (n - 1)), (Nat.ltb_spec j (n - 2)); try lia; easy. }
  set (u := with_ends cf k n s sol) in *. set (x := el (cX cf) j) in *.
  assert (P : c_al cf k t' j * el u (j - 1) + c_be cf k t' j * el u j + c_ga cf k t' j * el u (j + 1)
    = / 2 * cDx2 cf * cDt cf * (kf k t' x + kf k t x) + (- cDx2 cf + cDt cf * kd k t x - / 2 * cDt cf * cDx2 cf * kr k t x) * el z j
      - / 2 * (cDt cf * kd k t x - / 2 * cDt cf * cDx cf * kc k t x) * el z (j - 1)
      - / 2 * (cDt cf * kd k t x + / 2 * cDt cf * cDx cf * kc k t x) * el z (j + 1)).
  { rewrite Z0, Z1, Z2. rewrite !EL by lia. unfold left_value, right_value in SO. rewrite BT in SO.
    change (@at_ R Rnum) with el in SO. fold x in SO. rewrite half_half in SO. cbn [nsub nmul nadd nopp Rnum] in SO. fold t in SO.
    destruct (Nat.eqb_spec (j - 1) 0), (Nat.eqb_spec j 1), (Nat.eqb_spec j (n - 2)), (Nat.eqb_spec j 0), (Nat.eqb_spec j (n - 1)),
      (Nat.eqb_spec (j - 1) (n - 1)), (Nat.eqb_spec (j + 1) 0), (Nat.eqb_spec (j + 1) (n - 1)), (Nat.ltb_spec 1 j), (Nat.ltb_spec j (n - 2));
      try lia; replace (j + 1 - 1)%nat with j by lia; lra. }
  clear Z0 Z1 Z2 SO RB EL. clearbody u z.
  unfold c_al, c_be, c_ga in P. rewrite half_half, D2 in P. cbn [nadd nsub nmul nopp Rnum] in P.
  change (at_ (cX cf) j) with x in P. unfold cn_eq, space_at, space. fold x.
  set (dt := cDt cf) in *. set (h := cDx cf) in *.
  apply (Rmult_eq_reg_r (dt * (h * h))); [|apply Rgt_not_eq; apply Rmult_lt_0_compat; nra].
  transitivity ((el u j - el z j) * (h * h)); [field; lra|].
  transitivity (/ 2 * (dt * kd k t x * (el z (j + 1) - 2 * el z j + el z (j - 1)) + / 2 * dt * h * kc k t x * (el z (j + 1) - el z (j - 1))
     + dt * (h * h) * kr k t x * el z j - dt * (h * h) * kf k t x +
     (dt * kd k t' x * (el u (j + 1) - 2 * el u j + el u (j - 1)) + / 2 * dt * h * kc k t' x * (el u (j + 1) - el u (j - 1))
     + dt * (h * h) * kr k t' x * el u j - dt * (h * h) * kf k t' x))); [lra|field; lra].
Qed.

Theorem C70_step : forall lu (cf : Conf R) w k n s,
  cScheme cf = CrankNicolson ThomasAlgorithm -> evaluates (cPde cf) w k -> sized cf s n -> (4 <= n)%nat ->
  length (fB s) = (n - 2)%nat -> (Z.of_nat n - 4 <= INT_MAX)%Z ->
  0 < cDx cf -> 0 < cDt cf -> cDx2 cf = cDx cf * cDx cf ->
  let t := fTPrev s in let t' := fTPrev s + cDt cf in stable k (cDx cf) (cX cf) n t' ->
  exists s', time_step lu cf w s = (Ok tt, s') /\ fOld s' = fNew s' /\ length (fNew s') = n /\ length (fB s') = (n - 2)%nat /\
    el (fNew s') 0 = kl k t' (el (cX cf) 0) /\
    el (fNew s') (n - 1) = kg k t' (el (cX cf) (n - 1)) /\
    forall j, (1 <= j <= n - 2)%nat -> cn_eq k (cDt cf) (cDx cf) t t' (cX cf) (zero_ends n (fOld s)) (fNew s') j.
Proof.
  intros lu cf w k n s SC EV SZ H LB MX DX DT D2 t t' ST.
  assert (AB : forall j, (1 <= j <= n - 2)%nat -> Rabs (c_al cf k t' j) + Rabs (c_ga cf k t' j) < Rabs (c_be cf k t' j)).
  { intros j J. destruct (ST j J) as [CV RE]. set (x := el (cX cf) j) in *.
    unfold c_al, c_ga, c_be. rewrite half_half, D2. cbn [nadd nsub nmul nopp Rnum]. change (at_ (cX cf) j) with x.
    assert (HC : - (2 * kd k t' x) <= kc k t' x * cDx cf <= 2 * kd k t' x).
    { assert (Rabs (kc k t' x * cDx cf) <= 2 * kd k t' x) by (rewrite Rabs_mult, (Rabs_pos_eq (cDx cf)); lra). now apply Rabs_le_inv. }
    set (h := cDx cf) in *. set (dt := cDt cf) in *.
    assert (0 < h * h) by nra.
    rewrite (Rabs_pos_eq (/ 2 * (dt * kd k t' x - / 2 * dt * h * kc k t' x))) by nra.
    rewrite (Rabs_pos_eq (/ 2 * (dt * kd k t' x + / 2 * dt * h * kc k t' x))) by nra.
    assert (0 <= dt * kd k t' x) by nra.
    assert (0 <= - (/ 2 * dt * (h * h) * kr k t' x)) by (rewrite Ropp_mult_distr_r; apply Rmult_le_pos; [nra|lra]).
    rewrite (Rabs_left1 (- (h * h) - dt * kd k t' x + / 2 * dt * (h * h) * kr k t' x)) by lra. lra. }
  destruct (C59_dominant (n - 2) (c_matrix cf k n s (n - 2)) (b_upto cf k n s (n - 2))) as (sol & E & SO & _); auto; try lia.
  { apply tri_square. } { apply tri_tridiagonal. lia. } { unfold b_upto. now rewrite map_length, seq_length. } { now apply tri_dominant. }
  now apply (cn_step_solved lu cf w k n s sol SC EV SZ H LB MX DX DT D2 E).
Qed.
Print Assumptions C70_step.

(** Away from the ends the equation is the right one. *)
Lemma cn_eq_inner : forall k dt h t t' xs n old new j, (2 <= j <= n - 3)%nat ->
  cn_eq k dt h t t' xs (zero_ends n old) new j <-> cn_eq k dt h t t' xs old new j.
Proof.
  intros k dt h t t' xs n old new j J. unfold cn_eq, space_at. rewrite !zero_ends_el by lia.
  assert (Z : forall i, (1 <= i <= n - 2)%nat -> (Nat.eqb i 0 || Nat.eqb i (n - 1))%bool = false).
  { intros i I. apply orb_false_intro; apply Nat.eqb_neq; lia. }
  rewrite !Z by lia. tauto.
Qed.
(** At the first and the last interior node it is right only if the missing term is 0. *)
Lemma cn_eq_first : forall k dt h t t' xs n old new, (4 <= n)%nat ->
  cn_eq k dt h t t' xs (zero_ends n old) new 1 ->
  (cn_eq k dt h t t' xs old new 1 <-> (kd k t (el xs 1) / (h * h) - kc k t (el xs 1) / (2 * h)) * el old 0 = 0).
Proof.
  intros k dt h t t' xs n old new H C. unfold cn_eq, space_at, space in *. rewrite !zero_ends_el in C by lia.
  replace (Nat.eqb 1 (n - 1)) with false in C by (symmetry; apply Nat.eqb_neq; lia).
  replace (Nat.eqb (1 + 1) (n - 1)) with false in C by (symmetry; apply Nat.eqb_neq; lia).
  cbn [Nat.sub Nat.add Nat.eqb orb] in *. unfold Rdiv in *. rewrite C. set (c := kc k t (el xs 1)). set (d := kd k t (el xs 1)).
  set (i2 := / (h * h)). set (i1 := / (2 * h)). split; intros E; nra.
Qed.
Lemma cn_eq_last : forall k dt h t t' xs n old new, (4 <= n)%nat ->
  cn_eq k dt h t t' xs (zero_ends n old) new (n - 2) ->
  (cn_eq k dt h t t' xs old new (n - 2) <->
   (kd k t (el xs (n - 2)) / (h * h) + kc k t (el xs (n - 2)) / (2 * h)) * el old (n - 1) = 0).
Proof.
  intros k dt h t t' xs n old new H C. unfold cn_eq, space_at, space in *. rewrite !zero_ends_el in C by lia.
  replace (Nat.eqb (n - 2) (n - 1)) with false in C by (symmetry; apply Nat.eqb_neq; lia).
  replace (Nat.eqb (n - 2 - 1) (n - 1)) with false in C by (symmetry; apply Nat.eqb_neq; lia).
  replace (Nat.eqb (n - 2) 0) with false in C by (symmetry; apply Nat.eqb_neq; lia).
  replace (Nat.eqb (n - 2 - 1) 0) with false in C by (symmetry; apply Nat.eqb_neq; lia).
  replace (n - 2 + 1)%nat with (n - 1)%nat in * by lia. rewrite Nat.eqb_refl, orb_true_r in C.
  cbn [orb] in *. unfold Rdiv in *. rewrite C. set (c := kc k t (el xs (n - 2))). set (d := kd k t (el xs (n - 2))).
  set (i2 := / (h * h)). set (i1 := / (2 * h)). split; intros E; nra.
Qed.

(** The part that holds: the Crank-Nicolson equation at the nodes 2..J-3.  Missing: nodes 1
    and J-2, where it holds exactly if the dropped term is 0 (see [C70_refuted]). *)
Theorem C70_partial : forall lu (cf : Conf R) w k n s,
  cScheme cf = CrankNicolson ThomasAlgorithm -> evaluates (cPde cf) w k -> sized cf s n -> (4 <= n)%nat ->
  length (fB s) = (n - 2)%nat -> (Z.of_nat n - 4 <= INT_MAX)%Z ->
  0 < cDx cf -> 0 < cDt cf -> cDx2 cf = cDx cf * cDx cf ->
  let t := fTPrev s in let t' := fTPrev s + cDt cf in let h := cDx cf in stable k h (cX cf) n t' ->
  exists s', time_step lu cf w s = (Ok tt, s') /\
    el (fNew s') 0 = kl k t' (el (cX cf) 0) /\ el (fNew s') (n - 1) = kg k t' (el (cX cf) (n - 1)) /\
    (forall j, (2 <= j <= n - 3)%nat -> cn_eq k (cDt cf) h t t' (cX cf) (fOld s) (fNew s') j) /\
    (cn_eq k (cDt cf) h t t' (cX cf) (fOld s) (fNew s') 1 <->
       (kd k t (el (cX cf) 1) / (h * h) - kc k t (el (cX cf) 1) / (2 * h)) * el (fOld s) 0 = 0) /\
    (cn_eq k (cDt cf) h t t' (cX cf) (fOld s) (fNew s') (n - 2) <->
       (kd k t (el (cX cf) (n - 2)) / (h * h) + kc k t (el (cX cf) (n - 2)) / (2 * h)) * el (fOld s) (n - 1) = 0).
Proof.
  intros lu cf w k n s SC EV SZ H LB MX DX DT D2 t t' h ST.
  destruct (C70_step lu cf w k n s SC EV SZ H LB MX DX DT D2 ST) as (s' & E & _ & _ & _ & B0 & B1 & EQ).
  exists s'. split; [easy|]. split; [easy|]. split; [easy|]. split; [|split].
  - intros j J. apply (cn_eq_inner _ _ _ _ _ _ n); [easy|]. apply EQ. lia.
  - apply (cn_eq_first _ _ _ _ _ _ n); [easy|]. apply EQ. lia.
  - apply (cn_eq_last _ _ _ _ _ _ n); [easy|]. apply EQ. lia.
Qed.
Print Assumptions C70_partial.

(** A whole run with the Thomas solver. *)
Theorem C70_run : forall lu xDom J tDom N p o ip mem w0 (cf : Conf R) s w k,
  (4 <= J < ULONG_MOD)%Z -> (J - 4 <= INT_MAX)%Z -> (2 <= N < ULONG_MOD)%Z -> 0 < xDom -> 0 < tDom ->
  Fdm_ctor KCrankNicolson xDom J tDom N p o ip (Some ThomasAlgorithm) mem w0 = Ok (cf, s) -> evaluates p w k ->
  (forall t, 0 <= t <= tDom -> stable k (xDom / (IZR J - 1)) (cX cf) (Z.to_nat J) t) ->
  let m := Z.to_nat (N - 1) in
  exists v s', (forall fuel, (m <= fuel)%nat -> solve lu cf w fuel s = Some (Ok v, s')) /\
    layers (cn_layer_code k (tDom / (IZR N - 1)) (xDom / (IZR J - 1)) (cX cf) (Z.to_nat J)) (fOld s) m v.
Proof.
  intros lu xDom J tDom N p o ip mem w0 cf s w k HJ MX HN HX HT E EV STB m.
  assert (HJ' : (2 <= J < ULONG_MOD)%Z) by lia. assert (J0 : (0 <= J)%Z) by lia.
  destruct (ctor_facts _ _ _ _ _ _ _ _ _ _ _ _ _ HJ' HN HX HT E) as (SC & EP & DX & DT & DX0 & DT0 & D2 & SZ0 & TI).
  rewrite <- DX, <- DT. rewrite <- DX in STB. rewrite <- EP in EV. cbn [scheme_of] in SC.
  destruct (ctor_ok _ _ _ _ _ _ _ _ _ _ _ _ _ _ _ J0 E)
    as (_ & _ & _ & _ & _ & _ & _ & _ & _ & _ & _ & _ & _ & _ & _ & _ & _ & _ & LB). destruct (LB ltac:(discriminate)) as [_ LB0].
  destruct (C67_exact lu _ _ _ _ _ _ _ _ _ _ _ _ _ HN HT J0 E) as (_ & RUN & CL).
  assert (G : forall i, (i <= m)%nat -> exists s1, steps lu cf w i s s1 /\ sized cf s1 (Z.to_nat J) /\
              length (fB s1) = (Z.to_nat J - 2)%nat /\ (i <> 0%nat -> fOld s1 = fNew s1) /\
              layers (cn_layer_code k (cDt cf) (cDx cf) (cX cf) (Z.to_nat J)) (fOld s) i (fOld s1)).
  { induction i as [|i IH]; intros I.
    - exists s. repeat split; try apply SZ0; auto; [constructor|lia|constructor].
    - destruct (IH ltac:(lia)) as (s1 & ST & SZ & LB1 & _ & LY).
      pose proof (CL _ _ _ ST) as TPI. rewrite <- DT in TPI.
      assert (TN : fTPrev s1 + cDt cf = INR (i + 1) * cDt cf) by (rewrite TPI, plus_INR; cbn; ring).
      destruct (C70_step lu cf w k (Z.to_nat J) s1 SC EV SZ ltac:(lia) LB1 ltac:(lia) DX0 DT0 D2)
        as (s2 & E2 & ON & L2 & LB2 & B0 & B1 & EQ).
      { rewrite TN. apply STB. now apply TI. }
      rewrite TN in B0, B1, EQ. rewrite TPI in EQ.
      exists s2. split; [eapply steps_add1; eauto|]. split; [eapply sized_step; eauto|]. split; [easy|]. split; [easy|].
      econstructor; [exact LY|]. unfold cn_layer_code. rewrite ON. repeat split; auto. }
  destruct (G m ltac:(lia)) as (s1 & ST & _ & _ & ON & LY). rewrite ON in LY by (unfold m; lia).
  exists (fNew s1), (finished s1). split; [intros fuel F; now apply RUN|easy].
Qed.
Print Assumptions C70_run.

(** Example data: a stock at [S], no dividend; a European option on it. *)
Definition w_bs (S sigma r : R) : Market R := mkMarket r [("A"%string, 0%nat)] [] [mkStock S sigma None] [].
Definition o_bs (ty : PayoffType) (K mat : R) : Option R := mkOption European "A" mat (PVanilla ty K) None 0.
Lemma read_bs : forall S sigma r, read "A" (w_bs S sigma r) = Ok (mkStock S sigma None).
Proof. reflexivity. Qed.
Lemma initial_total : forall ty K mat w x, exists v, initialCondition (BlackScholesPDE (o_bs ty K mat)) w x = Ok v.
Proof. intros ty K mat w x. cbn. destruct ty; eauto. Qed.

(** Every put: the first step from the payoff violates the scheme at node 1. *)
Theorem C70_put_violation : forall lu xDom J tDom N (o : Option R) ip mem w0 cf s w d K,
  (4 <= J < ULONG_MOD)%Z -> (J - 4 <= INT_MAX)%Z -> (2 <= N < ULONG_MOD)%Z -> 0 < xDom -> 0 < tDom ->
  optPayoff o = PVanilla Put K -> 0 < K ->
  Fdm_ctor KCrankNicolson xDom J tDom N (BlackScholesPDE o) o ip (Some ThomasAlgorithm) mem w0 = Ok (cf, s) ->
  read (optTicker o) w = Ok d ->
  let sigma := sigma_ d in let r := mR w in let c := dividend d in
  Rabs (r - c) < sigma * sigma -> 0 <= r ->
  exists s', time_step lu cf w s = (Ok tt, s') /\
    ~ cn_eq (bs_coefs sigma r c Put K (optT o)) (cDt cf) (cDx cf) 0 (cDt cf) (cX cf) (fOld s) (fNew s') 1.
Proof.
  intros lu xDom J tDom N o ip mem w0 cf s w d K HJ MX HN HX HT PO HK E RD sigma r c V R0.
  assert (HJ' : (2 <= J < ULONG_MOD)%Z) by lia. assert (J0 : (0 <= J)%Z) by lia.
  destruct (ctor_facts _ _ _ _ _ _ _ _ _ _ _ _ _ HJ' HN HX HT E) as (SC & EP & DX & DT & DX0 & DT0 & D2 & SZ0 & TI).
  destruct (ctor_ok _ _ _ _ _ _ _ _ _ _ _ _ _ _ _ J0 E)
    as (_ & _ & _ & _ & _ & _ & _ & _ & _ & _ & _ & _ & _ & _ & _ & TP & _ & _ & LB). destruct (LB ltac:(discriminate)) as [_ LB0].
  pose proof (bs_evaluates o w d Put K RD PO (or_intror eq_refl)) as EV. rewrite <- EP in EV.
  pose proof (grid_el _ _ _ _ _ _ _ _ _ _ _ _ _ HJ' E) as GE. rewrite <- DX in GE.
  destruct (C66_grid _ _ _ _ _ _ _ _ _ _ _ _ _ HJ' HX E) as (_ & X0 & _ & _ & _ & LO & IV).
  destruct (C70_partial lu cf w _ (Z.to_nat J) s SC EV SZ0 ltac:(lia) LB0 ltac:(lia) DX0 DT0 D2) as (s' & ST & _ & _ & _ & FIRST & _).
  { intros j JJ. split; [|cbn; unfold r in *; lra]. rewrite GE by lia. apply bs_peclet; auto; [lia|]. fold sigma r c. lra. }
  exists s'. split; [easy|]. rewrite TP in FIRST. change (n0 : R) with 0 in FIRST. rewrite Rplus_0_l in FIRST. fold sigma r c in FIRST.
  rewrite FIRST. clear FIRST.
  assert (F0 : el (fOld s) 0 = K).
  { specialize (IV 0%nat ltac:(lia)). apply (vanilla_initial o w0 Put K) in IV; auto. rewrite IV, X0. unfold Rmax. destruct (Rle_dec _ _); lra. }
  rewrite F0, GE by lia. change (INR 1) with 1. cbn [kd kc bs_coefs]. set (h := cDx cf) in *.
  replace (sigma * sigma * (1 * h) * (1 * h) / 2 / (h * h) - (r - c) * (1 * h) / (2 * h)) with ((sigma * sigma - (r - c)) / 2) by (field; lra).
  pose proof (Rle_abs (r - c)). intros Q. apply Rmult_integral in Q. lra.
Qed.
Print Assumptions C70_put_violation.

Theorem C70_refuted : forall lu mem, exists cf s s',
  let o := o_bs Put 1 1 in let w := w_bs 1 1 0 in
  Fdm_ctor KCrankNicolson 4 5 1 2 (BlackScholesPDE o) o None (Some ThomasAlgorithm) mem w = Ok (cf, s) /\
  time_step lu cf w s = (Ok tt, s') /\
  ~ cn_eq (bs_coefs 1 0 0 Put 1 1) (cDt cf) (cDx cf) 0 (cDt cf) (cX cf) (fOld s) (fNew s') 1.
Proof.
  intros lu mem. set (o := o_bs Put 1 1). set (w := w_bs 1 1 0).
  destruct (ctor_total _ _ KCrankNicolson 4 5 1 2 (BlackScholesPDE o) o None (Some ThomasAlgorithm) mem w (initial_total Put 1 1 w) ltac:(lia)) as (cf & s & E).
  destruct (C70_put_violation lu 4 5 1 2 o None mem w cf s w _ 1 ltac:(unfold ULONG_MOD; lia) ltac:(unfold INT_MAX; lia) ltac:(unfold ULONG_MOD; lia)
    ltac:(lra) ltac:(lra) eq_refl ltac:(lra) E (read_bs 1 1 0)) as (s' & ST & NE).
  { cbn. rewrite Rminus_0_r, Rabs_R0. lra. } { cbn. lra. }
  exists cf, s, s'. split; [exact E|]. split; [exact ST|]. exact NE.
Qed.
Print Assumptions C70_refuted.

(** ** C71 *)
(** With four nodes or more the first system solved in a step has an empty row.  A sparse LU
    that rejects such matrices (SparseLU reports them as singular) makes every first step
    throw. *)
Definition zero_row {T} {num : Num T} (A : list (list T)) : Prop := exists row, In row A /\ row <> [] /\ Forall (eq n0) row.
Theorem C71_throws : forall T (num : Num T) (lu : LuAlg T) xDom J tDom N p o ip mem w0 (cf : Conf T) s w k,
  (forall A, zero_row A -> lu_sparse lu A = None) ->
  (4 <= J < ULONG_MOD)%Z -> nltb n0 tDom = true ->
  Fdm_ctor KCrankNicolson xDom J tDom N p o ip None mem w0 = Ok (cf, s) -> evaluates p w k ->
  (exists s', time_step lu cf w s = (Throw RuntimeError, s')) /\
  (forall fuel, exists s', solve lu cf w (Datatypes.S fuel) s = Some (Throw RuntimeError, s')) /\
  (forall fuel, exists s', calculatePrice lu cf w (Datatypes.S fuel) s = Some (Throw RuntimeError, s')).
Proof.
  intros T num lu xDom J tDom N p o ip mem w0 cf s w k LU HJ HT E EV. assert (J0 : (0 <= J)%Z) by lia.
  assert (SZ : sized cf s (Z.to_nat J)) by (eapply ctor_sized; [|exact E]; lia).
  destruct (ctor_ok _ _ _ _ _ _ _ _ _ _ _ _ _ _ _ J0 E)
    as (SC & _ & _ & TD & _ & EP & _ & _ & _ & _ & _ & _ & _ & _ & _ & _ & TC & FS & LB). destruct (LB ltac:(discriminate)) as [_ LB0].
  cbn [scheme_of] in SC. rewrite <- EP in EV.
  assert (ZR : zero_row (c_matrix cf k (Z.to_nat J) s 1)).
  { exists (map (fun _ => n0) (seq 0 (Z.to_nat J - 2))). split; [|split].
    - unfold c_matrix, tri. apply in_map_iff. exists 1%nat. split; [apply map_ext; easy|]. apply in_seq. lia.
    - destruct (Z.to_nat J - 2)%nat eqn:Q; [lia|discriminate].
    - apply Forall_forall. intros v I. apply in_map_iff in I as (i & <- & _). easy. }
  assert (ST := cn_step_throw lu cf w k (Z.to_nat J) EV s LUDecomposition RuntimeError SC SZ ltac:(lia) LB0).
  cbn [matrix_solve] in ST. rewrite (LU _ ZR) in ST. specialize (ST eq_refl).
  set (s' := mkFdm _ _ _ _ _ _) in ST.
  assert (SO : forall fuel, solve lu cf w (Datatypes.S fuel) s = Some (Throw RuntimeError, s')).
  { intros fuel. unfold solve. cbn [march]. rewrite TC, TD, HT, ST. reflexivity. }
  split; [exists s'; exact ST|]. split; intros fuel; exists s'; [apply SO|].
  unfold calculatePrice. rewrite FS, SO. reflexivity.
Qed.
Print Assumptions C71_throws.

(** A witness: the default collaborators, a put on five nodes. *)
Theorem C71_refuted : forall lu : LuAlg R, (forall A, zero_row A -> lu_sparse lu A = None) ->
  forall mem, exists cf s, Fdm_ctor KCrankNicolson 4 5 1 2 (BlackScholesPDE (o_bs Put 1 1)) (o_bs Put 1 1) None None mem (w_bs 1 1 0) = Ok (cf, s) /\
  (exists s', time_step lu cf (w_bs 1 1 0) s = (Throw RuntimeError, s')).
Proof.
  intros lu LU mem.
  destruct (ctor_total _ _ KCrankNicolson 4 5 1 2 (BlackScholesPDE (o_bs Put 1 1)) (o_bs Put 1 1) None None mem (w_bs 1 1 0)
    (initial_total Put 1 1 _) ltac:(lia)) as (cf & s & E).
  exists cf, s. split; [exact E|].
  assert (EV := bs_evaluates (o_bs Put 1 1) _ _ Put 1 (read_bs 1 1 0) eq_refl (or_intror eq_refl)).
  assert (T1 : nltb (n0 : R) 1 = true) by (apply Rlt_bool_true; change (n0 : R) with 0; lra).
  assert (J5 : (4 <= 5 < ULONG_MOD)%Z) by (unfold ULONG_MOD; lia).
  exact (proj1 (C71_throws _ _ lu 4 5 1 2 _ _ _ _ _ cf s _ _ LU J5 T1 E EV)).
Qed.
Print Assumptions C71_refuted.

(** Such an LU exists that also solves the systems of the implicit scheme. *)
Definition lu_ex : LuAlg R := mkLuAlg
  (fun A => if existsb (fun row => match row with [] => false | _ => forallb (Req_bool 0) row end) A then None
            else Some (fun b => match thomas A b with Ok x => Some x | _ => None end)) (fun _ b => b).
Example C71_lu_ex : (forall A, zero_row A -> lu_sparse lu_ex A = None) /\ exact_solver lu_ex LUDecomposition.
Proof.
  split.
  - intros A (row & I & NE & F). cbn [lu_sparse lu_ex]. replace (existsb _ A) with true; [easy|]. symmetry. apply existsb_exists.
    exists row. split; [easy|]. destruct row as [|a row]; [easy|]. apply forallb_forall. intros x X. rewrite Forall_forall in F.
    rewrite <- (F x X). now apply Req_bool_true.
  - intros n A b N MX SQ TR LB D. destruct (C59_dominant n A b N MX SQ TR LB D) as (x & E & S & _). exists x. split; [|easy].
    cbn [matrix_solve lu_sparse lu_ex]. replace (existsb _ A) with false; [now rewrite E|]. symmetry.
    apply not_true_iff_false. intros X. apply existsb_exists in X as (row & I & F).
    destruct (In_nth A row [] I) as (i & L & <-). destruct SQ as [LA FA]. rewrite LA in L. specialize (D i L).
    assert (Z : entry A i i = 0).
    { unfold entry, el. destruct (nth i A []) as [|a l] eqn:Q; [easy|].
      rewrite forallb_forall in F. rewrite Forall_forall in FA. rewrite <- Q in *.
      specialize (F (nth i (nth i A []) 0)). symmetry. revert F. intros F.
      destruct (Req_bool_spec 0 (nth i (nth i A []) 0)) as [W|W]; [easy|].
      assert (B : false = true); [|discriminate]. apply F. apply nth_In. rewrite (FA (nth i A [])); [lia|]. apply nth_In. lia. }
    rewrite Z, Rabs_R0 in D.
    assert (G : forall m, 0 <= Rsum m (fun j => if Nat.eqb i j then 0 else Rabs (entry A i j))).
    { induction m as [|m IH]; cbn [Rsum]; [lra|]. destruct (Nat.eqb i m); [lra|]. pose proof (Rabs_pos (entry A i m)). lra. }
    specialize (G n). lra.
Qed.

(** ** C72 *)
(** Left: the boundary value is the payoff.  Right, put: it is, exactly when the grid reaches
    the strike.  Right, call: it is, exactly when no interest accrues up to maturity (or the
    accidental case below the strike). *)
Theorem C72_partial : forall (o : Option R) w ty K xDom,
  optPayoff o = PVanilla ty K -> ty = Call \/ ty = Put -> 0 <= K -> 0 < xDom ->
  let pde := BlackScholesPDE o in
  initialCondition pde w 0 = boundaryLeft pde w 0 0 /\
  (ty = Put -> (initialCondition pde w xDom = boundaryRight pde w 0 xDom <-> K <= xDom)) /\
  (ty = Call -> K <= xDom -> (initialCondition pde w xDom = boundaryRight pde w 0 xDom <-> K = 0 \/ mR w * optT o = 0)) /\
  (ty = Call -> xDom < K -> (initialCondition pde w xDom = boundaryRight pde w 0 xDom <-> xDom = K * exp (- (mR w * optT o)))).
Proof.
  intros o w ty K xDom PO TY HK HX pde.
  assert (IC : forall x, initialCondition pde w x = Ok (match ty with Call => Rmax (x - K) 0 | _ => Rmax (K - x) 0 end)).
  { intros x. destruct (initialCondition pde w x) as [v|e|] eqn:I.
    - f_equal. now apply (vanilla_initial o w ty K).
    - cbn in I. unfold option_payoff1 in I. rewrite PO in I. destruct ty; discriminate.
    - cbn in I. unfold option_payoff1 in I. rewrite PO in I. destruct ty; discriminate. }
  rewrite !IC. unfold pde. cbn [BlackScholesPDE boundaryLeft boundaryRight]. unfold bs_boundaryLeft, bs_boundaryRight. rewrite PO.
  cbn [payoff_clone singleStrike getPayoffType]. unfold getR. cbn [nsub nmul nopp nexp Rnum]. change (n0 : R) with 0.
  replace (- mR w * (optT o - 0)) with (- (mR w * optT o)) by ring.
  destruct TY as [-> | ->]; cbn [PayoffType_eqb].
  - split; [f_equal; apply Rmax_right; lra|]. split; [easy|]. split.
    + intros _ KX. rewrite Rmax_left by lra. split.
      * intros Q. injection Q as Q. destruct (Req_dec K 0) as [|K0]; [now left|]. right.
        assert (X : exp (- (mR w * optT o)) = exp 0) by (rewrite exp_0; apply (Rmult_eq_reg_l K); lra). apply exp_inv in X. lra.
      * intros [-> | Z]; [f_equal; ring|]. rewrite Z, Ropp_0, exp_0. f_equal. ring.
    + intros _ KX. rewrite Rmax_right by lra. split; [intros Q; injection Q as Q; lra|intros Q; f_equal; lra].
  - split; [f_equal; rewrite Rmax_left; lra|]. split; [|easy]. intros _. split.
    + intros Q. injection Q as Q. destruct (Rle_lt_dec K xDom) as [|L]; [easy|]. rewrite Rmax_left in Q; lra.
    + intros Q. f_equal. apply Rmax_right. lra.
Qed.
Print Assumptions C72_partial.

(** A call with positive rate: the right boundary value at the instant of the payoff is
    x - K exp(-rT), above the payoff x - K. *)
Theorem C72_refuted : exists (o : Option R) w xDom, optPayoff o = PVanilla Call 1 /\ 1 < xDom /\
  initialCondition (BlackScholesPDE o) w xDom <> boundaryRight (BlackScholesPDE o) w 0 xDom.
Proof.
  set (o := o_bs Call 1 1). set (w := w_bs 1 1 (5 / 100)). exists o, w, 4. split; [easy|]. split; [lra|]. intros E. destruct (C72_partial o w Call 1 4 eq_refl (or_introl eq_refl) ltac:(lra) ltac:(lra)) as (_ & _ & C & _).
  apply C in E; [|easy|lra]. cbn [mR w w_bs optT o o_bs] in E. lra.
Qed.
Print Assumptions C72_refuted.

(** Digital options get the boundary values of vanilla options: for a put the left value is
    the strike although the payoff there is 1. *)
Theorem C72_digital_refuted : forall (o : Option R) w K, optPayoff o = PDigital Put K -> 0 < K ->
  initialCondition (BlackScholesPDE o) w 0 = Ok 1 /\ boundaryLeft (BlackScholesPDE o) w 0 0 = Ok K.
Proof.
  intros o w K PO HK. cbn [BlackScholesPDE initialCondition boundaryLeft]. unfold option_payoff1, bs_boundaryLeft. rewrite PO.
  split; [|reflexivity]. cbn [payoff1 PayoffType_eqb nltb Rnum]. now rewrite Rlt_bool_true.
Qed.
Print Assumptions C72_digital_refuted.
