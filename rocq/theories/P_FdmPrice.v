(** Properties C73, C75 (witnesses), C78-C81: prices of finite-difference solvers. *)
From Coq Require Import String List ZArith Bool Lia Reals Lra.
From Flocq Require Import Core.
From Verif Require Import M_Num M_Outcome M_Dict M_Stock M_Market M_Payoff M_Option M_Numeric M_Fdm.
From Verif Require Import S_Market S_Model S_Numeric S_Fdm L_Dict L_Numeric L_Fdm P_LinearSystem P_FdmMarch P_FdmScheme.
Import ListNotations.
Local Open Scope R_scope.

(** The first price: solve, then read. *)
Lemma first_price : forall T (num : Num T) lu cf w fuel (s : Fdm T) v s',
  fSolved s = false -> solve lu cf w fuel s = Some (Ok v, s') ->
  calculatePrice lu cf w fuel s = calculatePrice lu cf w fuel s'.
Proof.
  intros T num lu cf w fuel s v s' FS E. unfold calculatePrice. rewrite FS, E.
  apply solve_march in E as (s1 & _ & _ & ->). reflexivity.
Qed.
Lemma price_solves : forall T (num : Num T) lu cf w fuel (s : Fdm T) p s',
  fSolved s = false -> calculatePrice lu cf w fuel s = Some (Ok p, s') ->
  exists v d, solve lu cf w fuel s = Some (Ok v, s') /\ read (optTicker (cOption cf)) w = Ok d /\
              interpolate (cInterp cf) (cX cf) v (S_ d) = Ok p.
Proof.
  intros T num lu cf w fuel s p s' FS E. unfold calculatePrice in E. rewrite FS in E.
  destruct (solve lu cf w fuel s) as [[o s1]|] eqn:SO; [|discriminate]. destruct o as [v|e|]; try discriminate.
  unfold fbind at 1, flift at 1 in E. unfold read_price, fbind, flift, fget in E.
  change (stock_of (cOption cf) w) with (read (optTicker (cOption cf)) w) in E.
  destruct (read (optTicker (cOption cf)) w) as [d|e|] eqn:RD; try discriminate.
  destruct (solve_march _ _ _ _ _ _ _ _ _ SO) as (s2 & _ & V & F).
  injection E as E <-. exists v, d. repeat split; auto. rewrite V. subst s1. exact E.
Qed.

(** ** C75 *)
(** Whatever happens to the rate, volatility and coupon, the price stays. *)
Theorem C75_stale : forall T (num : Num T) lu cf w fuel (s : Fdm T) p s',
  fSolved s = false -> calculatePrice lu cf w fuel s = Some (Ok p, s') ->
  forall w' fuel' d d', read (optTicker (cOption cf)) w = Ok d -> read (optTicker (cOption cf)) w' = Ok d' -> S_ d' = S_ d ->
  calculatePrice lu cf w' fuel' s' = Some (Ok p, s').
Proof.
  intros T num lu cf w fuel s p s' FS E w' fuel' d d' RD RD' SD.
  destruct (price_solves _ _ _ _ _ _ _ _ _ FS E) as (v & d1 & SO & RD1 & IP).
  destruct (C74_solved_once _ _ _ _ _ _ _ _ _ SO []) as (_ & _ & P). rewrite (P w' fuel' d' RD'), SD. congruence.
Qed.
Print Assumptions C75_stale.

(** An at-the-money put on three nodes, one explicit step, rate 0: the value at the middle
    node is sigma^2/2. *)
Lemma small_put : forall lu ip sv mem w0 cf s w sigma,
  Fdm_ctor KExplicit 2 3 1 2 (BlackScholesPDE (o_bs Put 1 1)) (o_bs Put 1 1) ip sv mem w0 = Ok (cf, s) ->
  read "A" w = Ok (mkStock 1 sigma None) -> mR w = 0 ->
  exists v s', (forall fuel, (1 <= fuel)%nat -> solve lu cf w fuel s = Some (Ok v, s')) /\ el v 1 = sigma * sigma / 2 /\ el (cX cf) 1 = 1.
Proof.
  intros lu ip sv mem w0 cf s w sigma E RD R0. set (o := o_bs Put 1 1) in *.
  assert (HJ : (2 <= 3 < ULONG_MOD)%Z) by (unfold ULONG_MOD; lia).
  assert (HN : (2 <= 2 < ULONG_MOD)%Z) by (unfold ULONG_MOD; lia).
  assert (H2 : 0 < 2) by lra. assert (H1 : 0 < 1) by lra.
  pose proof (bs_evaluates o w _ Put 1 RD eq_refl (or_intror eq_refl)) as EV.
  destruct (C68_run lu _ _ _ _ _ _ _ _ _ _ _ _ w _ HJ HN H2 H1 E EV) as (v & s' & SO & LY).
  destruct (C66_grid _ _ _ _ _ _ _ _ _ _ _ _ _ HJ H2 E) as (_ & X0 & X2 & _ & SP & _ & IV).
  pose proof (grid_el _ _ _ _ _ _ _ _ _ _ _ _ _ HJ E) as GE.
  change (Z.to_nat (2 - 1)) with 1%nat in *. change (Z.to_nat 3) with 3%nat in *.  change (3 - 1)%nat with 2%nat in X2.
  exists v, s'. split; [exact SO|].
  assert (X1 : el (cX cf) 1 = 1) by (rewrite GE by lia; cbn; field).
  assert (O : forall j, (j < 3)%nat -> el (fOld s) j = Rmax (1 - el (cX cf) j) 0).
  { intros j J. specialize (IV j J). apply (vanilla_initial o w0 Put 1) in IV; auto. }
  assert (O0 : el (fOld s) 0 = 1) by (rewrite O, X0, Rmax_left by (lia || lra); lra).
  assert (O1 : el (fOld s) 1 = 0) by (rewrite O, X1, Rmax_right by (lia || lra); lra).
  assert (O2 : el (fOld s) 2 = 0) by (rewrite O, X2, Rmax_right by (lia || lra); lra).
  split; [|exact X1]. inversion LY as [|m u v' LU LK A1 A2]. subst m v'. inversion LU. subst u.
  destruct LK as (_ & _ & _ & EQ). specialize (EQ 1%nat ltac:(cbn; lia)). unfold explicit_eq, space_at, space in EQ.
  cbn [Nat.sub Nat.add] in EQ. rewrite O0, O1, O2, X1 in EQ. cbn [kd kc kr kf bs_coefs sigma_ c_ dividend] in EQ. rewrite R0 in EQ.
  field_simplify in EQ. lra.
Qed.

Theorem C75_refuted : forall lu mem, exists cf s p s',
  let o := o_bs Put 1 1 in let w := w_bs 1 (1 / 2) 0 in let w' := post (updateStockSigma "A" 1 w) in
  Fdm_ctor KExplicit 2 3 1 2 (BlackScholesPDE o) o None None mem w = Ok (cf, s) /\
  calculatePrice lu cf w 1 s = Some (Ok p, s') /\
  calculatePrice lu cf w' 1 s' = Some (Ok p, s') /\
  exists cf1 s1 p1 s1', Fdm_ctor KExplicit 2 3 1 2 (BlackScholesPDE o) o None None mem w' = Ok (cf1, s1) /\
    calculatePrice lu cf1 w' 1 s1 = Some (Ok p1, s1') /\ p1 <> p.
Proof.
  intros lu mem. set (o := o_bs Put 1 1). set (w := w_bs 1 (1 / 2) 0). set (w' := post (updateStockSigma "A" 1 w)).
  assert (HJ : (2 <= 3 <= UINT_MOD)%Z) by (unfold UINT_MOD; lia).
  assert (RW : read "A" w = Ok (mkStock 1 (1/2) None)) by reflexivity.
  assert (EW : w' = w_bs 1 1 0).
  { unfold w', w, updateStockSigma, updateStock, w_bs. cbn [dget mMap String.eqb Ascii.eqb Bool.eqb]. unfold getStockData. cbn.
    match goal with |- post (match ?x with _ => _ end) = _ => destruct x end; reflexivity. }
  assert (RW' : read "A" w' = Ok (mkStock 1 1 None)) by (rewrite EW; reflexivity).
  assert (R0 : mR w' = 0) by (rewrite EW; reflexivity).
  destruct (ctor_total _ _ KExplicit 2 3 1 2 (BlackScholesPDE o) o None None mem w (initial_total Put 1 1 w) ltac:(lia)) as (cf & s & E).
  destruct (ctor_total _ _ KExplicit 2 3 1 2 (BlackScholesPDE o) o None None mem w' (initial_total Put 1 1 w') ltac:(lia)) as (cf1 & s1 & E1).
  destruct (small_put lu None None mem w cf s w (1/2) E RW eq_refl) as (v & s' & SO & V & X).
  destruct (small_put lu None None mem w' cf1 s1 w' 1 E1 RW' R0) as (v1 & s1' & SO1 & V1 & X1).
  assert (J0 : (0 <= 3)%Z) by lia.
  destruct (ctor_ok _ _ _ _ _ _ _ _ _ _ _ _ _ _ _ J0 E) as (_ & _ & _ & _ & _ & _ & OP & _ & _ & _ & _ & _ & _ & _ & _ & _ & _ & FS & _).
  destruct (ctor_ok _ _ _ _ _ _ _ _ _ _ _ _ _ _ _ J0 E1) as (_ & _ & _ & _ & _ & _ & OP1 & _ & _ & _ & _ & _ & _ & _ & _ & _ & _ & FS1 & _).
  assert (H2 : 0 < 2) by lra.
  destruct (C74_node_price lu KExplicit 2 3 1 2 _ o None None mem w cf s HJ H2 (or_introl eq_refl) E w 1 v s' (SO 1%nat ltac:(lia))) as [_ P].
  destruct (C74_node_price lu KExplicit 2 3 1 2 _ o None None mem w' cf1 s1 HJ H2 (or_introl eq_refl) E1 w' 1 v1 s1' (SO1 1%nat ltac:(lia))) as [_ P1].
  exists cf, s, (el v 1), s'. split; [exact E|]. split; [|split].
  - rewrite (first_price _ _ _ _ _ _ _ _ _ FS (SO 1%nat ltac:(lia))). apply (P w 1%nat (mkStock 1 (1/2) None) 1%nat); auto. cbn; lia.
  - apply (P w' 1%nat (mkStock 1 1 None) 1%nat); auto. cbn; lia.
  - exists cf1, s1, (el v1 1), s1'. split; [exact E1|]. split; [|rewrite V, V1; lra].
    refine (eq_trans (first_price _ _ _ _ _ _ _ _ _ FS1 (SO1 1%nat ltac:(lia))) _). apply (P1 w' 1%nat (mkStock 1 1 None) 1%nat); auto. cbn; lia.
Qed.
Print Assumptions C75_refuted.

(** ** C73 *)
Theorem C73_refuted : forall lu mem, exists cf s d,
  let o := o_bs Put 2 0 in let w := w_bs 1 1 0 in
  Fdm_ctor KExplicit 2 3 0 2 (BlackScholesPDE o) o None None mem w = Ok (cf, s) /\
  read "A" w = Ok d /\ el (cX cf) 1 = S_ d /\
  option_payoff1 o (S_ d) = Ok 1 /\ calculatePrice lu cf w 1 s = Some (Ok 0, finished s).
Proof.
  intros lu mem. set (o := o_bs Put 2 0). set (w := w_bs 1 1 0).
  destruct (ctor_total _ _ KExplicit 2 3 0 2 (BlackScholesPDE o) o None None mem w (initial_total Put 2 0 w) ltac:(lia)) as (cf & s & E).
  assert (HJ : (2 <= 3 < ULONG_MOD)%Z) by (unfold ULONG_MOD; lia). assert (H2 : 0 < 2) by lra.
  exists cf, s, (mkStock 1 1 None). split; [exact E|]. split; [reflexivity|].
  split; [rewrite (grid_el _ _ _ _ _ _ _ _ _ _ _ _ _ HJ E) by (cbn; lia); cbn; field|]. split.
  - destruct (initial_total Put 2 0 w 1) as [v I]. pose proof I as I'. apply (vanilla_initial o w Put 2) in I; auto.
    cbn [initialCondition BlackScholesPDE] in I'. cbn [S_]. fold o in I'. rewrite I', I. f_equal. rewrite Rmax_left; lra.
  - apply (C73_zero_prices lu KExplicit 2 3 2 _ o None None mem w cf s HJ H2 (or_introl eq_refl) E w 1 (mkStock 1 1 None)). reflexivity.
Qed.
Print Assumptions C73_refuted.

(** ** C79: a failed solve is not followed by a price *)
(** When the step that fails is the last one, tCurr already stands at tDom.  The next call
    finds nothing left to do, sets solved and uses the unfinished values. *)
Theorem C79_after_failure : forall T (num : Num T) lu cf w (s : Fdm T) e s' d,
  time_step lu cf w s = (Throw e, s') -> nltb (fTCurr s) (cTDom cf) = true -> nltb (fTCurr s') (cTDom cf) = false ->
  read (optTicker (cOption cf)) w = Ok d -> fSolved s = false ->
  forall fuel, solve lu cf w (Datatypes.S fuel) s = Some (Throw e, s') /\
    solve lu cf w fuel s' = Some (Ok (fNew s'), finished s').
Proof.
  intros T num lu cf w s e s' d ST C C' RD FS fuel. split.
  - unfold solve. cbn [march]. rewrite C, ST. reflexivity.
  - unfold solve. rewrite march_done by easy. reflexivity.
Qed.
Print Assumptions C79_after_failure.

(** The default Crank-Nicolson solver with N = 2: the first call throws, the second returns
    a price, 0, for a put with payoff 1 at the spot. *)
Theorem C79_refuted : forall lu mem, (forall A : list (list R), zero_row A -> lu_sparse lu A = None) ->
  exists cf s s1 s2,
  let o := o_bs Put 2 1 in let w := w_bs 1 1 0 in
  Fdm_ctor KCrankNicolson 4 5 1 2 (BlackScholesPDE o) o None None mem w = Ok (cf, s) /\
  calculatePrice lu cf w 1 s = Some (Throw RuntimeError, s1) /\
  calculatePrice lu cf w 1 s1 = Some (Ok 0, s2).
Proof.
  intros lu mem LU. set (o := o_bs Put 2 1). set (w := w_bs 1 1 0).
  destruct (ctor_total _ _ KCrankNicolson 4 5 1 2 (BlackScholesPDE o) o None None mem w (initial_total Put 2 1 w) ltac:(lia)) as (cf & s & E).
  assert (J0 : (0 <= 5)%Z) by lia. assert (HJ : (2 <= 5 < ULONG_MOD)%Z) by (unfold ULONG_MOD; lia). assert (H4 : 0 < 4) by lra.
  assert (EV := bs_evaluates o w _ Put 2 (read_bs 1 1 0) eq_refl (or_intror eq_refl)).
  destruct (C66_grid _ _ _ _ _ _ _ _ _ _ _ _ _ HJ H4 E) as (LX & _ & _ & INC & _).
  pose proof (grid_el _ _ _ _ _ _ _ _ _ _ _ _ _ HJ E) as GE.
  assert (SZ : sized cf s (Z.to_nat 5)) by (eapply ctor_sized; [|exact E]; unfold ULONG_MOD; lia).
  destruct (ctor_ok _ _ _ _ _ _ _ _ _ _ _ _ _ _ _ J0 E)
    as (SC & _ & _ & TD & _ & EP & OP & CI & _ & _ & DT & _ & _ & _ & FN & TP & TC & FS & LB). destruct (LB ltac:(discriminate)) as [_ LB0].
  cbn [scheme_of] in SC. rewrite <- EP in EV. set (k := bs_coefs _ _ _ _ _ _) in EV.
  assert (ZR : zero_row (c_matrix cf k (Z.to_nat 5) s 1)).
  { exists (map (fun _ => n0) (seq 0 (Z.to_nat 5 - 2))). split; [|split].
    - unfold c_matrix, tri. apply in_map_iff. exists 1%nat. split; [apply map_ext; easy|]. apply in_seq. cbn. lia.
    - discriminate.
    - apply Forall_forall. intros v I. apply in_map_iff in I as (i & <- & _). easy. }
  assert (ST := cn_step_throw lu cf w k (Z.to_nat 5) EV s LUDecomposition RuntimeError SC SZ ltac:(cbn; lia) LB0).
  cbn [matrix_solve] in ST. rewrite (LU _ ZR) in ST. specialize (ST eq_refl).
  set (s1 := mkFdm _ _ _ _ _ _) in ST. exists cf, s, s1, (finished s1). split; [exact E|].
  assert (D1 : cDt cf = 1).
  { rewrite DT. cbn [ndiv nofZ Rnum]. rewrite ulsub_small by (unfold ULONG_MOD; lia). cbn. field. }
  assert (C : nltb (fTCurr s) (cTDom cf) = true) by (rewrite TC, TD; apply Rlt_bool_true; change (n0 : R) with 0; lra).
  assert (C' : nltb (fTCurr s1) (cTDom cf) = false).
  { cbn [fTCurr s1]. rewrite TP, TD, D1. apply Rlt_bool_false. cbn [nadd Rnum]. change (n0 : R) with 0. lra. }
  assert (RD : read (optTicker (cOption cf)) w = Ok (mkStock 1 1 None)) by (rewrite OP; reflexivity).
  destruct (C79_after_failure _ _ lu cf w s _ s1 _ ST C C' RD FS 0%nat) as [S1 _].
  destruct (C79_after_failure _ _ lu cf w s _ s1 _ ST C C' RD FS 1%nat) as [_ S2].
  split.
  - unfold calculatePrice. rewrite FS, S1. reflexivity.
  - assert (FS1 : fSolved s1 = false) by exact FS. rewrite (first_price _ _ _ _ _ _ _ _ _ FS1 S2).
    destruct (C74_solved_once _ _ _ _ _ _ _ _ _ S2 []) as (_ & _ & P). rewrite (P w 1%nat _ RD). do 2 f_equal.
    rewrite CI. cbn [interpolate S_].
    assert (NE : cX cf <> []) by (intros Z0; rewrite Z0 in LX; cbn in LX; lia).
    assert (LN : length (fNew s1) = length (cX cf)).
    { cbn [fNew s1]. unfold bounded_new. rewrite !lset_length. destruct SZ as (_ & _ & A & _ & B). congruence. }
    destruct (P_Interpolation.C55_linear_interpolation (cX cf) (fNew s1) 1 NE LN INC) as (y & L & Y & _). rewrite L. f_equal.
    apply (Y 1%nat). split.
    + replace 1 with (el (cX cf) 1) by (rewrite GE by (cbn; lia); cbn; field). apply nth_error_nth'. rewrite LX. cbn. lia.
    + replace 0 with (at_ (fNew s1) 1).
      { apply nth_error_nth'. rewrite LN, LX. cbn. lia. }
      cbn [fNew s1]. rewrite (at_bounded cf k (Z.to_nat 5) s 1) by (auto; cbn; lia). cbn [Nat.eqb Z.to_nat Nat.sub]. rewrite FN. reflexivity.
Qed.
Print Assumptions C79_refuted.

(** ** C80: the left boundary values are those of the equation *)
(** At x = 0 the Black-Scholes equation is u' = -r u, so the value from the payoff p is
    p exp(-r t).  The code has it for calls; for puts only if nothing is discounted. *)
Theorem C80_partial : forall (o : Option R) w ty K t,
  optPayoff o = PVanilla ty K -> ty = Call \/ ty = Put -> 0 <= K ->
  (ty = Call -> boundaryLeft (BlackScholesPDE o) w t 0 = Ok (Rmax (0 - K) 0 * exp (- mR w * t))) /\
  (ty = Put -> (boundaryLeft (BlackScholesPDE o) w t 0 = Ok (Rmax (K - 0) 0 * exp (- mR w * t)) <-> K = 0 \/ mR w * t = 0)).
Proof.
  intros o w ty K t PO TY HK. cbn [BlackScholesPDE boundaryLeft]. unfold bs_boundaryLeft. rewrite PO. cbn [payoff_clone singleStrike getPayoffType].
  destruct TY as [-> | ->]; cbn [PayoffType_eqb]; (split; [intros Q|intros Q]); try discriminate.
  - f_equal. rewrite Rmax_right by lra. change (n0 : R) with 0. ring.
  - rewrite Rmax_left by lra. rewrite Rminus_0_r. split.
    + intros E. injection E as E. destruct (Req_dec K 0) as [|K0]; [now left|]. right.
      assert (X : exp (- mR w * t) = exp 0) by (rewrite exp_0; apply (Rmult_eq_reg_l K); lra). apply exp_inv in X. lra.
    + intros [-> |Z]; f_equal; [ring|]. replace (- mR w * t) with (- (mR w * t)) by ring. rewrite Z, Ropp_0, exp_0. ring.
Qed.
Print Assumptions C80_partial.

(** So a put is worth its undiscounted strike at x = 0, above the bound K exp(-rT) that no
    European put exceeds. *)
Theorem C80_refuted : forall lu mem, exists cf s v s',
  let o := o_bs Put 1 1 in let w := w_bs 1 1 (5 / 100) in
  Fdm_ctor KExplicit 4 5 1 2 (BlackScholesPDE o) o None None mem w = Ok (cf, s) /\
  solve lu cf w 1 s = Some (Ok v, s') /\ el (cX cf) 0 = 0 /\ 1 * exp (- (5 / 100) * 1) < el v 0.
Proof.
  intros lu mem. set (o := o_bs Put 1 1). set (w := w_bs 1 1 (5 / 100)).
  destruct (ctor_total _ _ KExplicit 4 5 1 2 (BlackScholesPDE o) o None None mem w (initial_total Put 1 1 w) ltac:(lia)) as (cf & s & E).
  assert (HJ : (2 <= 5 < ULONG_MOD)%Z) by (unfold ULONG_MOD; lia).
  assert (HN : (2 <= 2 < ULONG_MOD)%Z) by (unfold ULONG_MOD; lia).
  assert (H4 : 0 < 4) by lra. assert (H1 : 0 < 1) by lra.
  assert (EV := bs_evaluates o w _ Put 1 (read_bs 1 1 (5 / 100)) eq_refl (or_intror eq_refl)).
  destruct (C68_run lu _ _ _ _ _ _ _ _ _ _ _ _ w _ HJ HN H4 H1 E EV) as (v & s' & SO & LY).
  destruct (C66_grid _ _ _ _ _ _ _ _ _ _ _ _ _ HJ H4 E) as (_ & X0 & _).
  exists cf, s, v, s'. split; [exact E|]. split; [apply SO; cbn; lia|]. split; [easy|].
  inversion LY as [|m u v' LU LK A1 A2]. subst v'. destruct LK as (_ & B & _). rewrite B. cbn [kl bs_coefs].
  rewrite Rmult_1_l. apply Rlt_le_trans with (exp 0); [apply exp_increasing; lra|rewrite exp_0; lra].
Qed.
Print Assumptions C80_refuted.

(** ** C81: put-call parity on the grid *)
Definition affine (n : nat) (xs u : list R) (K : R) : Prop := forall j, (j < n)%nat -> el u j = el xs j - K.

(** The difference of two explicit layers for r = c = 0. *)
Lemma parity_explicit : forall sigma K mat dt h xs n i oldC newC oldP newP,
  0 < h -> 0 < dt -> (2 <= n)%nat -> (forall j, (j < n)%nat -> el xs j = INR j * h) ->
  explicit_layer (bs_coefs sigma 0 0 Call K mat) dt h xs n i oldC newC ->
  explicit_layer (bs_coefs sigma 0 0 Put K mat) dt h xs n i oldP newP ->
  (forall j, (j < n)%nat -> el oldC j - el oldP j = el xs j - K) ->
  forall j, (j < n)%nat -> el newC j - el newP j = el xs j - K.
Proof.
  intros sigma K mat dt h xs n i oldC newC oldP newP HH HT HN GE (_ & C0 & C1 & CE) (_ & P0 & P1 & PE) OLD j J.
  destruct (Nat.eq_dec j 0) as [-> |J0].
  { rewrite C0, P0. cbn [kl bs_coefs]. rewrite GE by lia. change (INR 0) with 0. lra. }
  destruct (Nat.eq_dec j (n - 1)) as [-> |J1].
  { rewrite C1, P1. cbn [kg bs_coefs]. rewrite Ropp_0, Rmult_0_l, exp_0. lra. }
  specialize (CE j ltac:(lia)). specialize (PE j ltac:(lia)). unfold explicit_eq, space_at, space in CE, PE.
  pose proof (OLD j J) as A. pose proof (OLD (j - 1)%nat ltac:(lia)) as B. pose proof (OLD (j + 1)%nat ltac:(lia)) as D.
  assert (X : (el xs (j + 1) - K) - 2 * (el xs j - K) + (el xs (j - 1) - K) = 0).
  { rewrite !GE by lia. rewrite plus_INR, minus_INR by lia. change (INR 1) with 1. ring. }
  rewrite <- A, <- B, <- D in X. cbn [kd kc kr kf bs_coefs] in CE, PE.
  assert (E : (el newC j - el oldC j) / dt - (el newP j - el oldP j) / dt = 0).
  { rewrite CE, PE. set (d := sigma * sigma * el xs j * el xs j / 2).
    transitivity (d * ((el oldC (j + 1) - el oldP (j + 1) - 2 * (el oldC j - el oldP j) + (el oldC (j - 1) - el oldP (j - 1))) / (h * h))); [field; lra|].
    rewrite X. field. lra. }
  assert ((el newC j - el oldC j) - (el newP j - el oldP j) = 0).
  { replace ((el newC j - el oldC j) - (el newP j - el oldP j)) with (((el newC j - el oldC j) / dt - (el newP j - el oldP j) / dt) * dt) by (field; lra).
    rewrite E. ring. }
  lra.
Qed.

(** The difference of two implicit layers: x - K satisfies the same equations. *)
Lemma parity_implicit : forall sigma K mat dt h xs n i oldC newC oldP newP,
  0 < h -> 0 < dt -> (2 <= n)%nat -> (forall j, (j < n)%nat -> el xs j = INR j * h) -> length xs = n ->
  implicit_layer (bs_coefs sigma 0 0 Call K mat) dt h xs n i oldC newC ->
  implicit_layer (bs_coefs sigma 0 0 Put K mat) dt h xs n i oldP newP ->
  (forall j, (j < n)%nat -> el oldC j - el oldP j = el xs j - K) ->
  forall j, (j < n)%nat -> el newC j - el newP j = el xs j - K.
Proof.
  intros sigma K mat dt h xs n i oldC newC oldP newP HH HT HN GE LX (_ & C0 & C1 & CE) (_ & P0 & P1 & PE) OLD.
  set (dif := fun u v : list R => map (fun j => el u j - el v j) (seq 0 n)).
  assert (ED : forall u v j, (j < n)%nat -> el (dif u v) j = el u j - el v j).
  { intros u v j J. unfold dif, el at 1. now rewrite nth_map_seq. }
  set (lin := map (fun j => el xs j - K) (seq 0 n)).
  assert (EL : forall j, (j < n)%nat -> el lin j = el xs j - K) by (intros j J; unfold lin, el at 1; now rewrite nth_map_seq).
  set (k := mkCoefs (fun _ x => sigma * sigma * x * x / 2) (fun _ _ => 0) (fun _ _ => 0) (fun _ _ => 0) (fun _ x => x - K) (fun _ x => x - K)).
  assert (Q : dif newC newP = lin).
  { apply (implicit_unique k dt h xs n i lin); auto.
    - intros j J t x. cbn [kc kd kr k]. rewrite Rabs_R0. split; [|lra]. rewrite Rmult_0_l.
      replace (2 * (sigma * sigma * x * x / 2)) with ((sigma * x) * (sigma * x)) by field. apply Rle_0_sqr.
    - split; [unfold dif; now rewrite map_length, seq_length|]. split; [rewrite ED, C0, P0 by lia; cbn [kl bs_coefs k]; rewrite GE by lia; change (INR 0) with 0; lra|].
      split; [rewrite ED, C1, P1 by lia; cbn [kg bs_coefs k]; rewrite Ropp_0, Rmult_0_l, exp_0; lra|].
      intros j J. specialize (CE j J). specialize (PE j J). unfold implicit_eq, space_at, space in *. rewrite !ED by lia. rewrite EL, <- OLD by lia.
      cbn [kd kc kr kf bs_coefs k] in *.
      transitivity ((el newC j - el oldC j) / dt - (el newP j - el oldP j) / dt); [field; lra|]. rewrite CE, PE. field. lra.
    - split; [unfold lin; now rewrite map_length, seq_length|]. split; [rewrite EL by lia; reflexivity|]. split; [rewrite EL by lia; reflexivity|].
      intros j J. unfold implicit_eq, space_at, space. rewrite !EL by lia. cbn [kd kc kr kf k]. rewrite !GE by lia. rewrite plus_INR, minus_INR by lia.
      change (INR 1) with 1. field. lra. }
  intros j J. rewrite <- ED, Q by easy. now apply EL.
Qed.

Lemma parity_layers : forall (linkC linkP : nat -> list R -> list R -> Prop) (P : list R -> list R -> Prop) uC uP m vC vP,
  P uC uP -> (forall i a b c d, linkC i a b -> linkP i c d -> P a c -> P b d) ->
  layers linkC uC m vC -> layers linkP uP m vP -> P vC vP.
Proof.
  intros linkC linkP P uC uP m vC vP P0 ST LC. revert vP. induction LC as [|m v v' LC IH K]; intros vP LP.
  - inversion LP. now subst.
  - inversion LP as [|m' u u' LP' K' A1 A2]. subst. eapply ST; eauto.
Qed.

(** A call and a put with the same strike, maturity and grid, no rate and no dividend: the
    computed values differ by x - K at every node. *)
Theorem C81_parity_partial : forall lu k xDom J tDom N (oC oP : Option R) ipC ipP memC memP wC wP cfC sC cfP sP w dC dP K,
  k = KExplicit \/ k = KImplicit ->
  (4 <= J < ULONG_MOD)%Z -> (J - 4 <= INT_MAX)%Z -> (2 <= N < ULONG_MOD)%Z -> 0 < xDom -> 0 < tDom ->
  optPayoff oC = PVanilla Call K -> optPayoff oP = PVanilla Put K -> optT oC = optT oP ->
  Fdm_ctor k xDom J tDom N (BlackScholesPDE oC) oC ipC (Some ThomasAlgorithm) memC wC = Ok (cfC, sC) ->
  Fdm_ctor k xDom J tDom N (BlackScholesPDE oP) oP ipP (Some ThomasAlgorithm) memP wP = Ok (cfP, sP) ->
  read (optTicker oC) w = Ok dC -> read (optTicker oP) w = Ok dP -> sigma_ dC = sigma_ dP ->
  mR w = 0 -> dividend dC = 0 -> dividend dP = 0 ->
  exists vC vP sC' sP', let m := Z.to_nat (N - 1) in
    (forall fuel, (m <= fuel)%nat -> solve lu cfC w fuel sC = Some (Ok vC, sC') /\ solve lu cfP w fuel sP = Some (Ok vP, sP')) /\
    cX cfC = cX cfP /\
    forall j, (j < Z.to_nat J)%nat -> el vC j - el vP j = el (cX cfC) j - K.
Proof.
  intros lu k xDom J tDom N oC oP ipC ipP memC memP wC wP cfC sC cfP sP w dC dP K KK HJ MX HN HX HT POC POP TT EC EP RC RP SS R0 D0 D0'.
  assert (HJ' : (2 <= J < ULONG_MOD)%Z) by lia.
  pose proof (bs_evaluates oC w dC Call K RC POC (or_introl eq_refl)) as VC.
  pose proof (bs_evaluates oP w dP Put K RP POP (or_intror eq_refl)) as VP.
  rewrite R0, D0 in VC. rewrite R0, D0', <- SS, <- TT in VP.
  destruct (ctor_facts _ _ _ _ _ _ _ _ _ _ _ _ _ HJ' HN HX HT EC) as (_ & _ & DXC & DTC & DX0 & DT0 & _ & (_ & _ & LXC & _) & _).
  pose proof (grid_el _ _ _ _ _ _ _ _ _ _ _ _ _ HJ' EC) as GC. pose proof (grid_el _ _ _ _ _ _ _ _ _ _ _ _ _ HJ' EP) as GP.
  destruct (C66_grid _ _ _ _ _ _ _ _ _ _ _ _ _ HJ' HX EC) as (_ & _ & _ & _ & _ & LOC & IC).
  destruct (C66_grid _ _ _ _ _ _ _ _ _ _ _ _ _ HJ' HX EP) as (LXP & _ & _ & _ & _ & LOP & IP).
  assert (XX : cX cfC = cX cfP).
  { apply (list_at (cX cfC) (cX cfP)); [congruence|]. intros j JJ. change (@at_ R Rnum) with el. rewrite GC, GP by lia. reflexivity. }
  assert (START : forall j, (j < Z.to_nat J)%nat -> el (fOld sC) j - el (fOld sP) j = el (cX cfC) j - K).
  { intros j JJ. specialize (IC j JJ). specialize (IP j JJ). apply (vanilla_initial oC wC Call K) in IC; auto.
    apply (vanilla_initial oP wP Put K) in IP; auto. rewrite IC, IP, <- XX. unfold Rmax. destruct (Rle_dec _ _), (Rle_dec _ _); lra. }
  assert (J2 : (2 <= Z.to_nat J)%nat) by lia.
  assert (HDX : 0 < xDom / (IZR J - 1)) by (rewrite <- DXC; easy). assert (HDT : 0 < tDom / (IZR N - 1)) by (rewrite <- DTC; easy).
  destruct KK as [-> | ->].
  - destruct (C68_run lu _ _ _ _ _ _ _ _ _ _ _ _ w _ HJ' HN HX HT EC VC) as (vC & sC' & SC & LC).
    destruct (C68_run lu _ _ _ _ _ _ _ _ _ _ _ _ w _ HJ' HN HX HT EP VP) as (vP & sP' & SP & LP).
    exists vC, vP, sC', sP'. split; [intros fuel F; split; [now apply SC|now apply SP]|]. split; [exact XX|].
    rewrite <- XX in LP.
    refine (parity_layers _ _ (fun u v => forall j, (j < Z.to_nat J)%nat -> el u j - el v j = el (cX cfC) j - K) _ _ _ _ _ START _ LC LP).
    intros i a b c d LA LB AB. exact (parity_explicit (sigma_ dC) K (optT oC) _ _ (cX cfC) _ i a b c d HDX HDT J2 GC LA LB AB).
  - assert (STB : forall ty t, stable (bs_coefs (sigma_ dC) 0 0 ty K (optT oC)) (xDom / (IZR J - 1)) (cX cfC) (Z.to_nat J) t).
    { intros ty t j JJ. rewrite GC by lia. split; [|cbn; lra]. apply bs_peclet; auto; [lia|]. rewrite Rminus_0_r, Rabs_R0. apply Rle_0_sqr. }
    destruct (C69_run lu _ _ _ _ _ _ _ _ _ _ _ w _ HJ MX HN HX HT EC VC) as (vC & sC' & SC & LC & _); [intros t _; apply STB|].
    destruct (C69_run lu _ _ _ _ _ _ _ _ _ _ _ w _ HJ MX HN HX HT EP VP) as (vP & sP' & SP & LP & _); [intros t _; rewrite <- XX; apply STB|].
    exists vC, vP, sC', sP'. split; [intros fuel F; split; [now apply SC|now apply SP]|]. split; [exact XX|].
    rewrite <- XX in LP.
    refine (parity_layers _ _ (fun u v => forall j, (j < Z.to_nat J)%nat -> el u j - el v j = el (cX cfC) j - K) _ _ _ _ _ START _ LC LP).
    intros i a b c d LA LB AB. exact (parity_implicit (sigma_ dC) K (optT oC) _ _ (cX cfC) _ i a b c d HDX HDT J2 GC LXC LA LB AB).
Qed.
Print Assumptions C81_parity_partial.

(** With a positive rate parity C - P = x - K exp(-rT) fails on every grid, at the left end
    at least: the values there are 0 and K. *)
Theorem C81_refuted : forall lu mem, exists cfC sC vC sC' cfP sP vP sP',
  let oC := o_bs Call 1 1 in let oP := o_bs Put 1 1 in let w := w_bs 1 1 (5 / 100) in
  Fdm_ctor KExplicit 4 5 1 2 (BlackScholesPDE oC) oC None None mem w = Ok (cfC, sC) /\
  Fdm_ctor KExplicit 4 5 1 2 (BlackScholesPDE oP) oP None None mem w = Ok (cfP, sP) /\
  solve lu cfC w 1 sC = Some (Ok vC, sC') /\ solve lu cfP w 1 sP = Some (Ok vP, sP') /\
  el vC 0 - el vP 0 <> el (cX cfC) 0 - 1 * exp (- (5 / 100) * 1).
Proof.
  intros lu mem. set (w := w_bs 1 1 (5 / 100)).
  destruct (ctor_total _ _ KExplicit 4 5 1 2 (BlackScholesPDE (o_bs Call 1 1)) (o_bs Call 1 1) None None mem w (initial_total Call 1 1 w) ltac:(lia)) as (cfC & sC & EC).
  destruct (C80_refuted lu mem) as (cfP & sP & vP & sP' & EP & SP & _ & BIG).
  assert (HJ : (2 <= 5 < ULONG_MOD)%Z) by (unfold ULONG_MOD; lia).
  assert (HN : (2 <= 2 < ULONG_MOD)%Z) by (unfold ULONG_MOD; lia).
  assert (H4 : 0 < 4) by lra. assert (H1 : 0 < 1) by lra.
  assert (EV := bs_evaluates (o_bs Call 1 1) w _ Call 1 (read_bs 1 1 (5 / 100)) eq_refl (or_introl eq_refl)).
  destruct (C68_run lu _ _ _ _ _ _ _ _ _ _ _ _ w _ HJ HN H4 H1 EC EV) as (vC & sC' & SC & LY).
  destruct (C66_grid _ _ _ _ _ _ _ _ _ _ _ _ _ HJ H4 EC) as (_ & X0 & _).
  exists cfC, sC, vC, sC', cfP, sP, vP, sP'. split; [exact EC|]. split; [exact EP|]. split; [apply SC; cbn; lia|]. split; [exact SP|].
  inversion LY as [|m u v' LU LK A1 A2]. subst v'. destruct LK as (_ & B & _). rewrite B, X0. cbn [kl bs_coefs]. lra.
Qed.
Print Assumptions C81_refuted.

(** ** Cases that meet the hypotheses *)
(** C66, C67, C68, C74: a put on five nodes, ten times; the stability condition holds with
    equality. *)
Example C68_ex : forall lu mem, exists cf s v s' d,
  let o := o_bs Put 2 1 in let w := w_bs 1 1 0 in
  Fdm_ctor KExplicit 4 5 1 10 (BlackScholesPDE o) o None None mem w = Ok (cf, s) /\
  read (optTicker o) w = Ok d /\ Rabs (mR w - dividend d) <= sigma_ d * sigma_ d /\
  1 / (IZR 10 - 1) * (sigma_ d * sigma_ d * ((IZR 5 - 2) * (IZR 5 - 2)) + mR w) = 1 /\
  (forall fuel, (9 <= fuel)%nat -> solve lu cf w fuel s = Some (Ok v, s')) /\ length v = 5%nat /\ within 2 v /\
  calculatePrice lu cf w 9 s = Some (Ok (el v 1), s').
Proof.
  intros lu mem. set (o := o_bs Put 2 1). set (w := w_bs 1 1 0).
  destruct (ctor_total _ _ KExplicit 4 5 1 10 (BlackScholesPDE o) o None None mem w (initial_total Put 2 1 w) ltac:(lia)) as (cf & s & E).
  assert (HJ : (2 <= 5 < ULONG_MOD)%Z) by (unfold ULONG_MOD; lia).
  assert (HJ' : (2 <= 5 <= UINT_MOD)%Z) by (unfold UINT_MOD; lia).
  assert (HN : (2 <= 10 < ULONG_MOD)%Z) by (unfold ULONG_MOD; lia).
  assert (H4 : 0 < 4) by lra. assert (J0 : (0 <= 5)%Z) by lia.
  assert (V : Rabs (0 - 0) <= 1 * 1) by (rewrite Rminus_0_r, Rabs_R0; lra).
  assert (CFL : 1 / (IZR 10 - 1) * (1 * 1 * ((IZR 5 - 2) * (IZR 5 - 2)) + 0) = 1) by field.
  destruct (C68_vanilla_bounds lu 4 5 1 10 o None None mem w cf s w (mkStock 1 1 None) Put 2 HJ HN H4) as (v & s' & SO & L & W); auto;
    cbn [optT o o_bs sigma_ mR w w_bs dividend c_]; try lra; try exact V.
  exists cf, s, v, s', (mkStock 1 1 None). split; [exact E|]. split; [reflexivity|]. split; [exact V|]. split; [exact CFL|].
  split; [exact SO|]. split; [exact L|]. split; [exact W|].
  destruct (ctor_ok _ _ _ _ _ _ _ _ _ _ _ _ _ _ _ J0 E) as (_ & _ & _ & _ & _ & _ & _ & _ & _ & _ & _ & _ & _ & _ & _ & _ & _ & FS & _).
  assert (S9 : solve lu cf w 9 s = Some (Ok v, s')) by (apply SO; cbn; lia).
  rewrite (first_price _ _ _ _ _ _ _ _ _ FS S9).
  destruct (C74_node_price lu KExplicit 4 5 1 10 _ o None None mem w cf s HJ' H4 (or_introl eq_refl) E w 9 v s' S9) as [_ P].
  apply (P w 9%nat (mkStock 1 1 None) 1%nat); auto; [cbn; lia|].
  rewrite (grid_el _ _ _ _ _ _ _ _ _ _ _ _ _ HJ E) by (cbn; lia). cbn. field.
Qed.

(** C69: the same with a single implicit step of length 1, nine times the explicit limit. *)
Example C69_ex : forall lu mem, exists cf s v s',
  let o := o_bs Put 2 1 in let w := w_bs 1 1 0 in
  Fdm_ctor KImplicit 4 5 1 2 (BlackScholesPDE o) o None (Some ThomasAlgorithm) mem w = Ok (cf, s) /\
  (forall fuel, (1 <= fuel)%nat -> solve lu cf w fuel s = Some (Ok v, s')) /\ length v = 5%nat /\ within 2 v.
Proof.
  intros lu mem. set (o := o_bs Put 2 1). set (w := w_bs 1 1 0).
  destruct (ctor_total _ _ KImplicit 4 5 1 2 (BlackScholesPDE o) o None (Some ThomasAlgorithm) mem w (initial_total Put 2 1 w) ltac:(lia)) as (cf & s & E).
  assert (HJ : (4 <= 5 < ULONG_MOD)%Z) by (unfold ULONG_MOD; lia). assert (MX : (5 - 4 <= INT_MAX)%Z) by (unfold INT_MAX; lia).
  assert (HN : (2 <= 2 < ULONG_MOD)%Z) by (unfold ULONG_MOD; lia). assert (H4 : 0 < 4) by lra.
  destruct (C69_vanilla_bounds lu 4 5 1 2 o None mem w cf s w (mkStock 1 1 None) Put 2 HJ MX HN H4) as (v & s' & SO & L & W); auto;
    cbn [optT o o_bs sigma_ mR w w_bs dividend c_]; try lra; try (rewrite Rminus_0_r, Rabs_R0; lra).
  exists cf, s, v, s'. auto.
Qed.

(** C81: call and put struck at 2, implicit scheme, nine steps. *)
Example C81_ex : forall lu mem, exists cfC sC cfP sP vC vP sC' sP',
  let w := w_bs 1 1 0 in
  Fdm_ctor KImplicit 4 5 1 10 (BlackScholesPDE (o_bs Call 2 1)) (o_bs Call 2 1) None (Some ThomasAlgorithm) mem w = Ok (cfC, sC) /\
  Fdm_ctor KImplicit 4 5 1 10 (BlackScholesPDE (o_bs Put 2 1)) (o_bs Put 2 1) None (Some ThomasAlgorithm) mem w = Ok (cfP, sP) /\
  solve lu cfC w 9 sC = Some (Ok vC, sC') /\ solve lu cfP w 9 sP = Some (Ok vP, sP') /\
  forall j, (j < 5)%nat -> el vC j - el vP j = INR j - 2.
Proof.
  intros lu mem. set (w := w_bs 1 1 0).
  destruct (ctor_total _ _ KImplicit 4 5 1 10 (BlackScholesPDE (o_bs Call 2 1)) (o_bs Call 2 1) None (Some ThomasAlgorithm) mem w (initial_total Call 2 1 w) ltac:(lia)) as (cfC & sC & EC).
  destruct (ctor_total _ _ KImplicit 4 5 1 10 (BlackScholesPDE (o_bs Put 2 1)) (o_bs Put 2 1) None (Some ThomasAlgorithm) mem w (initial_total Put 2 1 w) ltac:(lia)) as (cfP & sP & EP).
  assert (HJ : (4 <= 5 < ULONG_MOD)%Z) by (unfold ULONG_MOD; lia). assert (HJ' : (2 <= 5 < ULONG_MOD)%Z) by (unfold ULONG_MOD; lia).
  assert (MX : (5 - 4 <= INT_MAX)%Z) by (unfold INT_MAX; lia).
  assert (HN : (2 <= 10 < ULONG_MOD)%Z) by (unfold ULONG_MOD; lia). assert (H4 : 0 < 4) by lra. assert (H1 : 0 < 1) by lra.
  destruct (C81_parity_partial lu KImplicit 4 5 1 10 (o_bs Call 2 1) (o_bs Put 2 1) None None mem mem w w cfC sC cfP sP w (mkStock 1 1 None) (mkStock 1 1 None) 2
    (or_intror eq_refl) HJ MX HN H4 H1 eq_refl eq_refl eq_refl EC EP eq_refl eq_refl eq_refl eq_refl eq_refl eq_refl) as (vC & vP & sC' & sP' & SO & _ & B).
  destruct (SO 9%nat) as [SC SP]; [cbn; lia|].
  exists cfC, sC, cfP, sP, vC, vP, sC', sP'. repeat (split; [assumption|]). intros j JJ. rewrite B by exact JJ.
  rewrite (grid_el _ _ _ _ _ _ _ _ _ _ _ _ _ HJ' EC) by exact JJ. field.
Qed.

(** ** C66, C67 and C78 in binary64: witnesses *)
Section Binary64.
Variables fexp flog : b64 -> b64.
Local Instance b64num : Num b64 := B64 fexp flog.

Definition w_b64 : Market b64 := mkMarket n0 [("A"%string, 0%nat)] [] [mkStock n1 n1 None] [].
Definition o_b64 : Option b64 := mkOption European "A" n1 (PVanilla Put n1) None 0.

Example C78_ex : forall (xDom : b64) (J N : Z) mem, (2 <= J)%Z ->
  (exists cf s, Fdm_ctor KExplicit xDom J n1 N (BlackScholesPDE o_b64) o_b64 None None mem w_b64 = Ok (cf, s)) /\
  exists c, evaluates (BlackScholesPDE o_b64) w_b64 c.
Proof.
  intros xDom J N mem HJ. split.
  - apply ctor_total; [|easy]. intros x. cbn. eauto.
  - eapply bs_total; reflexivity.
Qed.

(** The last of 50 nodes on [0, 1] is below 1. *)
Theorem C66_binary64_refuted : forall mem, exists cf s,
  Fdm_ctor KExplicit n1 50 n1 11 (BlackScholesPDE o_b64) o_b64 None None mem w_b64 = Ok (cf, s) /\
  length (cX cf) = 50%nat /\ nltb (nth 49 (cX cf) n0) n1 = true.
Proof.
  intros mem. assert (H : (2 <= 50)%Z) by lia. destruct (C78_ex n1 50 11 mem H) as ((cf & s & E) & _).
  exists cf, s. split; [exact E|]. exact (C66_binary64_last_node fexp flog _ _ _ _ _ _ _ _ _ _ _ E).
Qed.

(** With N = 11 and tDom = 1 eleven steps are made, and the clock ends after 1. *)
Theorem C67_binary64_refuted : forall lu mem, exists cf s s1,
  Fdm_ctor KExplicit n2 3 n1 11 (BlackScholesPDE o_b64) o_b64 None None mem w_b64 = Ok (cf, s) /\
  steps lu cf w_b64 11 s s1 /\ nltb n1 (fTCurr s1) = true /\
  forall fuel, (11 <= fuel)%nat -> solve lu cf w_b64 fuel s = Some (Ok (fNew s1), finished s1).
Proof.
  intros lu mem. assert (H : (2 <= 3)%Z) by lia. destruct (C78_ex n2 3 11 mem H) as ((cf & s & E) & c & EV).
  assert (J0 : (0 <= 3)%Z) by lia.
  destruct (ctor_ok _ _ _ _ _ _ _ _ _ _ _ _ _ _ _ J0 E) as (SC & _ & _ & _ & _ & EP & _). cbn [scheme_of] in SC.
  assert (SZ : sized cf s (Z.to_nat 3)) by (eapply ctor_sized; [|exact E]; unfold ULONG_MOD; lia).
  destruct (explicit_runs _ _ lu cf w_b64 c (Z.to_nat 3) ltac:(rewrite EP; exact EV) SC ltac:(lia) 11 s SZ) as (s1 & ST).
  destruct (C67_binary64_extra_step fexp flog lu _ _ _ _ _ _ _ _ _ _ _ J0 E) as (A & B).
  exists cf, s, s1. split; [exact E|]. split; [exact ST|].
  split; [exact (proj1 (B w_b64 s1 11%nat ST (le_n _)))|]. intros fuel F. exact (proj2 (B w_b64 s1 fuel ST F)).
Qed.

(** With N = 0 the loop never ends. *)
Theorem C78_refuted : forall lu mem, exists cf s,
  Fdm_ctor KExplicit n2 3 n1 0 (BlackScholesPDE o_b64) o_b64 None None mem w_b64 = Ok (cf, s) /\
  forall fuel, solve lu cf w_b64 fuel s = None.
Proof.
  intros lu mem. assert (H : (2 <= 3)%Z) by lia. destruct (C78_ex n2 3 0 mem H) as ((cf & s & E) & c & EV).
  exists cf, s. split; [exact E|]. assert (J0 : (0 <= 3)%Z) by lia.
  refine (proj2 (C78_never_returns fexp flog lu _ _ _ _ _ _ _ _ _ _ _ J0 E) w_b64 c EV eq_refl _). unfold ULONG_MOD. lia.
Qed.
End Binary64.
Print Assumptions C66_binary64_refuted.
Print Assumptions C67_binary64_refuted.
Print Assumptions C78_refuted.
