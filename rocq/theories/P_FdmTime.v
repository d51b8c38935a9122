(** Property C133: with rate 0 and no dividends, finite-difference values rise with the
    maturity and are never below the payoff. *)
From Coq Require Import String List ZArith Bool Lia Reals Lra Psatz.
From Flocq Require Import Core.
From Verif Require Import M_Num M_Outcome M_Dict M_Stock M_Market M_Payoff M_Option M_Numeric M_Fdm.
From Verif Require Import S_Market S_Model S_Numeric S_Fdm L_Dict L_Numeric L_Fdm L_Convex P_Interpolation P_LinearSystem P_FdmMarch P_FdmScheme P_FdmPrice P_FdmCompare P_FdmConvex P_ConvexPrice.
Import ListNotations.
Local Open Scope R_scope.

(** The layers of a run without drift: constant ends, convex, rising from layer to layer. *)
Lemma driftless_layers : forall kind lu xDom J tDom N ty K o cf s w d,
  gridded kind xDom J tDom N -> vanilla_solver kind xDom J tDom N ty K o cf s -> read (optTicker o) w = Ok d ->
  calm kind J tDom N (sigma_ d) (mR w) (dividend d) -> 0 <= K <= xDom -> mR w = 0 -> dividend d = 0 ->
  let n := Z.to_nat J in let m := Z.to_nat (N - 1) in let dt := tDom / (IZR N - 1) in let h := xDom / (IZR J - 1) in
  exists v s' (f : nat -> list R), (forall fuel, (m <= fuel)%nat -> solve lu cf w fuel s = Some (Ok v, s')) /\ f m = v /\
    (forall j, (j < n)%nat -> el (f 0%nat) j = exercise ty K (node xDom J j)) /\
    (forall i, (i <= m)%nat -> el (f i) 0 = exercise ty K 0 /\ el (f i) (n - 1) = exercise ty K xDom /\
       forall j, (1 <= j < n - 1)%nat -> 0 <= bend (el (f i)) j) /\
    (forall i j, (i < m)%nat -> (1 <= j <= n - 2)%nat ->
      residual kind (bs_operator (sigma_ d) 0 0) dt h (nodes xDom J) (fun i j => el (f i) j) i j = 0) /\
    forall i k j, (i <= k)%nat -> (k <= m)%nat -> (j < n)%nat -> el (f i) j <= el (f k) j.
Proof.
  intros kind lu xDom J tDom N ty K o cf s w d G V RD CA KX RZ QZ n m dt h.
  destruct (vanilla_layers kind lu xDom J tDom N ty K o cf s w d G V RD (fun _ => CA)) as (_ & v & s' & f & SO & FM & I0 & L).
  pose proof V as (TY & _). pose proof G as (KK & HJ & MX & HN & HX & HT). fold n in I0, L. fold m in SO, FM, L. fold dt h in L.
  assert (PN : 0 < IZR N - 1) by (assert (2 <= IZR N) by (apply IZR_le; lia); lra).
  assert (PJ : 0 < IZR J - 1) by (assert (4 <= IZR J) by (apply IZR_le; lia); lra).
  assert (DT : 0 < dt) by (now apply Rdiv_lt_0_compat). assert (HH : 0 < h) by (now apply Rdiv_lt_0_compat).
  assert (NJ : INR n = IZR J) by (unfold n; rewrite INR_IZR_INZ, Z2Nat.id by lia; easy).
  assert (N4 : (4 <= n)%nat) by (unfold n; lia). rewrite RZ, QZ in L.
  assert (LEFT : forall i, (i <= m)%nat -> el (f i) 0 = exercise ty K 0).
  { intros [|i] I; [rewrite I0 by lia; unfold node; cbn [INR]; now rewrite Rmult_0_l|].
    replace (S i) with (i + 1)%nat by lia. destruct (L i ltac:(lia)) as (_ & -> & _). unfold exercise. destruct TY as [-> | ->]; cbn [kl bs_coefs]; [rewrite Rmax_right|rewrite Rmax_left]; lra. }
  assert (RIGHT : forall i, (i <= m)%nat -> el (f i) (n - 1) = exercise ty K xDom).
  { intros [|i] I.
    - rewrite I0 by lia. unfold node. rewrite minus_INR, NJ by lia. change (INR 1) with 1. now replace ((IZR J - 1) * (xDom / (IZR J - 1))) with xDom by (field; lra).
    - replace (S i) with (i + 1)%nat by lia. destruct (L i ltac:(lia)) as (_ & _ & -> & _). unfold exercise. destruct TY as [-> | ->]; cbn [kg bs_coefs].
      + rewrite Ropp_0, Rmult_0_l, exp_0, Rmax_left; lra.
      + rewrite Rmax_right; lra. }
  destruct CA as (CV & R0 & CFL). rewrite RZ, QZ in CV. rewrite RZ in CFL.
  assert (RS : forall i j, (i < m)%nat -> (1 <= j <= n - 2)%nat -> residual kind (bs_operator (sigma_ d) 0 0) dt h (nodes xDom J) (fun i j => el (f i) j) i j = 0)
    by (intros i j I JJ; now apply (L i I)).
  assert (BE : forall i, (i <= m)%nat -> forall j, (1 <= j < n - 1)%nat -> 0 <= bend (el (f i)) j).
  { apply (layers_convex kind (sigma_ d) 0 0 dt xDom J m f KK HX ltac:(lia) DT ltac:(lra) CV).
    - intros KE j JJ. eapply Rle_trans; [|exact (CFL KE)]. fold dt. apply Rmult_le_compat_l; [lra|].
      assert (0 <= INR j) by apply pos_INR. fold n in JJ.
      assert (INR j <= IZR J - 2) by (rewrite <- NJ; change 2 with (INR 2); rewrite <- (minus_INR _ 2) by lia; apply le_INR; lia).
      assert (INR j * INR j <= (IZR J - 2) * (IZR J - 2)) by (apply Rmult_le_compat; lra).
      assert (sigma_ d * sigma_ d * (INR j * INR j) <= sigma_ d * sigma_ d * ((IZR J - 2) * (IZR J - 2))) by (apply Rmult_le_compat_l; [nra|easy]). lra.
    - intros j JJ. apply (exercise_bend ty K xDom J); [exact TY|lia|]. intros i' I'. apply I0. fold n in JJ. lia.
    - intros i' I'. cbn zeta. fold n h. split; [intros j JJ; apply RS; lia|]. rewrite (LEFT i'), (LEFT (i' + 1)%nat), (RIGHT i'), (RIGHT (i' + 1)%nat) by lia. rewrite Rminus_0_r, !Rmult_0_l. split; lra. }
  exists v, s', f. split; [exact SO|]. split; [exact FM|]. split; [exact I0|]. split; [intros i I; auto|]. split; [exact RS|].
  intros i k j IK. induction IK as [|k IK IH]; intros KM JJ; [lra|]. eapply Rle_trans; [apply IH; [lia|easy]|]. replace (S k) with (k + 1)%nat by lia.
  destruct (Nat.eq_dec j 0) as [->|J0]; [rewrite !LEFT by lia; lra|]. destruct (Nat.eq_dec j (n - 1)) as [->|J1]; [rewrite !RIGHT by lia; lra|].
  specialize (RS k j ltac:(lia) ltac:(lia)). unfold h in RS. rewrite bs_residual in RS by (auto; unfold n in JJ; lia).
  assert (RL : (read_layer kind k <= m)%nat) by (destruct KK as [-> | ->]; cbn; lia). specialize (BE _ RL j ltac:(lia)).
  set (a := fun j => el (f (read_layer kind k)) j) in *. change (0 <= bend a j) in BE.
  match type of RS with _ - ?x = 0 => change x with (lap (sigma_ d) 0 0 a j) in RS end.
  assert (E : lap (sigma_ d) 0 0 a j = sigma_ d * sigma_ d * (INR j * INR j) / 2 * bend a j) by (unfold lap; field).
  assert (P : 0 <= sigma_ d * sigma_ d * (INR j * INR j) / 2 * bend a j) by (apply Rmult_le_pos; [|exact BE]; apply Rmult_le_pos; [|lra]; apply Rmult_le_pos; nra).
  assert (Q : el (f (k + 1)%nat) j - el (f k) j = dt * (sigma_ d * sigma_ d * (INR j * INR j) / 2 * bend a j)).
  { rewrite <- E. replace (lap (sigma_ d) 0 0 a j) with ((el (f (k + 1)%nat) j - el (f k) j) / dt) by lra. field. lra. }
  assert (0 <= dt * (sigma_ d * sigma_ d * (INR j * INR j) / 2 * bend a j)) by (apply Rmult_le_pos; lra). lra.
Qed.

(** Two runs with one time step and one space grid; the second has the longer time domain
    and no lower volatility. *)
Theorem C133_maturity : forall kind lu xDom J tDom1 N1 tDom2 N2 ty K o1 o2 cf1 s1 cf2 s2 w1 w2 d1 d2,
  gridded kind xDom J tDom1 N1 -> gridded kind xDom J tDom2 N2 -> (N1 <= N2)%Z -> tDom1 / (IZR N1 - 1) = tDom2 / (IZR N2 - 1) ->
  vanilla_solver kind xDom J tDom1 N1 ty K o1 cf1 s1 -> vanilla_solver kind xDom J tDom2 N2 ty K o2 cf2 s2 ->
  read (optTicker o1) w1 = Ok d1 -> read (optTicker o2) w2 = Ok d2 ->
  calm kind J tDom2 N2 (sigma_ d2) (mR w2) (dividend d2) ->
  0 <= K <= xDom -> mR w1 = 0 -> mR w2 = 0 -> dividend d1 = 0 -> dividend d2 = 0 -> 0 <= sigma_ d1 <= sigma_ d2 ->
  exists v1 v2 s1' s2', (forall fuel, (Z.to_nat (N2 - 1) <= fuel)%nat ->
      solve lu cf1 w1 fuel s1 = Some (Ok v1, s1') /\ solve lu cf2 w2 fuel s2 = Some (Ok v2, s2')) /\
    forall j, (j < Z.to_nat J)%nat -> exercise ty K (node xDom J j) <= el v1 j <= el v2 j.
Proof.
  intros kind lu xDom J tDom1 N1 tDom2 N2 ty K o1 o2 cf1 s1 cf2 s2 w1 w2 d1 d2 G1 G2 NN TT V1 V2 RD1 RD2 CA2 KX RZ1 RZ2 QZ1 QZ2 SG.
  assert (SS : sigma_ d1 * sigma_ d1 <= sigma_ d2 * sigma_ d2) by nra.
  pose proof G1 as (KK & HJ & MX & HN1 & HX & HT1). pose proof G2 as (_ & _ & _ & HN2 & _ & HT2).
  assert (PN1 : 0 < IZR N1 - 1) by (assert (2 <= IZR N1) by (apply IZR_le; lia); lra).
  assert (PJ : 0 < IZR J - 1) by (assert (4 <= IZR J) by (apply IZR_le; lia); lra).
  assert (DT : 0 < tDom1 / (IZR N1 - 1)) by (now apply Rdiv_lt_0_compat).
  assert (HH : 0 < xDom / (IZR J - 1)) by (now apply Rdiv_lt_0_compat).
  assert (CA1 : calm kind J tDom1 N1 (sigma_ d1) (mR w1) (dividend d1)).
  { destruct CA2 as (_ & _ & CFL). rewrite RZ1, QZ1. split; [rewrite Rminus_0_r, Rabs_R0; nra|]. split; [lra|]. intros KE. specialize (CFL KE). rewrite RZ2, <- TT in CFL.
    eapply Rle_trans; [|exact CFL]. apply Rmult_le_compat_l; [lra|]. apply Rplus_le_compat_r. apply Rmult_le_compat_r; [apply Rle_0_sqr|exact SS]. }
  destruct (driftless_layers kind lu xDom J tDom1 N1 ty K o1 cf1 s1 w1 d1 G1 V1 RD1 CA1 KX RZ1 QZ1) as (v1 & s1' & f1 & SO1 & FM1 & I1 & B1 & L1 & T1).
  destruct (driftless_layers kind lu xDom J tDom2 N2 ty K o2 cf2 s2 w2 d2 G2 V2 RD2 CA2 KX RZ2 QZ2) as (v2 & s2' & f2 & SO2 & FM2 & I2 & B2 & L2 & T2).
  assert (MM : (Z.to_nat (N1 - 1) <= Z.to_nat (N2 - 1))%nat) by lia.
  exists v1, v2, s1', s2'. split; [intros fuel F; split; [apply SO1; lia|now apply SO2]|].
  rewrite <- TT in L2.
  assert (P : forall i j, (i <= Z.to_nat (N1 - 1))%nat -> (j < Z.to_nat J)%nat -> 0 <= el (f2 i) j - el (f1 i) j).
  { apply (march_positive kind (bs_operator (sigma_ d2) 0 0) _ _ (nodes xDom J) _ _ (fun i j => el (f2 i) j - el (f1 i) j) KK HH DT); [lia| | | |].
    - intros i I. rewrite TT. rewrite RZ2, QZ2 in CA2. now apply bs_no_oscillation.
    - intros j JJ. rewrite I1, I2 by easy. lra.
    - intros i I. destruct (B1 (i + 1)%nat ltac:(lia)) as (-> & -> & _). destruct (B2 (i + 1)%nat ltac:(lia)) as (-> & -> & _). lra.
    - intros i j I JJ. rewrite residual_minus. rewrite (L2 i j ltac:(lia) JJ). rewrite bs_residual by (auto; lia).
      pose proof (L1 i j I JJ) as R1. rewrite bs_residual in R1 by (auto; lia).
      assert (RL : (read_layer kind i <= Z.to_nat (N1 - 1))%nat) by (destruct KK as [-> | ->]; cbn; lia).
      destruct (B1 _ RL) as (_ & _ & BE). specialize (BE j ltac:(lia)).
      set (a := fun j => el (f1 (read_layer kind i)) j) in *. change (0 <= bend a j) in BE.
      change (lap (sigma_ d1) 0 0 (el (f1 (read_layer kind i))) j) with (lap (sigma_ d1) 0 0 a j) in R1.
      assert (D : lap (sigma_ d2) 0 0 a j = lap (sigma_ d1) 0 0 a j + (sigma_ d2 * sigma_ d2 - sigma_ d1 * sigma_ d1) * (INR j * INR j) / 2 * bend a j) by (unfold lap; field).
      rewrite D. assert (0 <= (sigma_ d2 * sigma_ d2 - sigma_ d1 * sigma_ d1) * (INR j * INR j) / 2 * bend a j).
      { apply Rmult_le_pos; [|exact BE]. apply Rmult_le_pos; [|lra]. apply Rmult_le_pos; [lra|nra]. } lra. }
  intros j JJ. specialize (P _ j (le_n _) JJ). split.
  - rewrite <- I1, <- FM1 by easy. apply T1; lia.
  - rewrite <- FM1, <- FM2. specialize (T2 (Z.to_nat (N1 - 1)) (Z.to_nat (N2 - 1)) j MM (le_n _) JJ). lra.
Qed.
Print Assumptions C133_maturity.

Lemma exercise_mean : forall ty K a b t, ty = Call \/ ty = Put -> 0 <= t <= 1 ->
  exercise ty K ((1 - t) * a + t * b) <= (1 - t) * exercise ty K a + t * exercise ty K b.
Proof.
  intros ty K a b t TY T. unfold exercise.
  assert (M : forall x y : R, Rmax ((1 - t) * x + t * y) 0 <= (1 - t) * Rmax x 0 + t * Rmax y 0).
  { intros x y. pose proof (Rmax_l x 0). pose proof (Rmax_r x 0). pose proof (Rmax_l y 0). pose proof (Rmax_r y 0). apply Rmax_lub; nra. }
  destruct TY as [-> | ->].
  - replace ((1 - t) * a + t * b - K) with ((1 - t) * (a - K) + t * (b - K)) by ring. apply M.
  - replace (K - ((1 - t) * a + t * b)) with ((1 - t) * (K - a) + t * (K - b)) by ring. apply M.
Qed.

(** The same for the price at any spot of the grid, with the default interpolation. *)
Theorem C133_price : forall kind lu xDom J tDom1 N1 tDom2 N2 ty K o1 o2 cf1 s1 cf2 s2 w1 w2 d1 d2,
  gridded kind xDom J tDom1 N1 -> gridded kind xDom J tDom2 N2 -> (N1 <= N2)%Z -> tDom1 / (IZR N1 - 1) = tDom2 / (IZR N2 - 1) ->
  vanilla_solver kind xDom J tDom1 N1 ty K o1 cf1 s1 -> vanilla_solver kind xDom J tDom2 N2 ty K o2 cf2 s2 ->
  cInterp cf1 = LinearInterpolation -> cInterp cf2 = LinearInterpolation ->
  read (optTicker o1) w1 = Ok d1 -> read (optTicker o2) w2 = Ok d2 ->
  calm kind J tDom2 N2 (sigma_ d2) (mR w2) (dividend d2) ->
  0 <= K <= xDom -> mR w1 = 0 -> mR w2 = 0 -> dividend d1 = 0 -> dividend d2 = 0 -> 0 <= sigma_ d1 <= sigma_ d2 ->
  S_ d1 = S_ d2 -> 0 <= S_ d1 <= xDom ->
  exists p1 p2 s1' s2', (forall fuel, (Z.to_nat (N2 - 1) <= fuel)%nat ->
      calculatePrice lu cf1 w1 fuel s1 = Some (Ok p1, s1') /\ calculatePrice lu cf2 w2 fuel s2 = Some (Ok p2, s2')) /\
    exercise ty K (S_ d1) <= p1 <= p2.
Proof.
  intros kind lu xDom J tDom1 N1 tDom2 N2 ty K o1 o2 cf1 s1 cf2 s2 w1 w2 d1 d2 G1 G2 NN TT V1 V2 C1 C2 RD1 RD2 CA2 KX RZ1 RZ2 QZ1 QZ2 SG SE SX.
  destruct (C133_maturity kind lu xDom J tDom1 N1 tDom2 N2 ty K o1 o2 cf1 s1 cf2 s2 w1 w2 d1 d2 G1 G2 NN TT V1 V2 RD1 RD2 CA2 KX RZ1 RZ2 QZ1 QZ2 SG) as (v1 & v2 & s1' & s2' & SO & LE).
  pose proof V1 as (TY & _). pose proof G1 as (KK & HJ & _ & HN & HX & _). pose proof G2 as (_ & _ & _ & HN2 & _).
  assert (PJ : 0 < IZR J - 1) by (assert (4 <= IZR J) by (apply IZR_le; lia); lra).
  assert (HH : 0 < xDom / (IZR J - 1)) by (now apply Rdiv_lt_0_compat).
  assert (CA1 : calm kind J tDom1 N1 (sigma_ d1) (mR w1) (dividend d1)).
  { destruct CA2 as (_ & _ & CFL). rewrite RZ1, QZ1. split; [rewrite Rminus_0_r, Rabs_R0; nra|]. split; [lra|]. intros KE. specialize (CFL KE). rewrite RZ2, <- TT in CFL.
    assert (PN1 : 0 < IZR N1 - 1) by (assert (2 <= IZR N1) by (apply IZR_le; lia); lra). pose proof G1 as (_ & _ & _ & _ & _ & HT1).
    assert (DT : 0 < tDom1 / (IZR N1 - 1)) by (now apply Rdiv_lt_0_compat).
    eapply Rle_trans; [|exact CFL]. apply Rmult_le_compat_l; [lra|]. apply Rplus_le_compat_r. apply Rmult_le_compat_r; [apply Rle_0_sqr|nra]. }
  destruct (driftless_layers kind lu xDom J tDom1 N1 ty K o1 cf1 s1 w1 d1 G1 V1 RD1 CA1 KX RZ1 QZ1) as (v & t & f & SO1 & _).
  assert (EQ : forall fuel, (Z.to_nat (N1 - 1) <= fuel)%nat -> solve lu cf1 w1 fuel s1 = Some (Ok v1, s1')).
  { intros fuel F. rewrite (SO1 fuel F). destruct (SO (Z.to_nat (N2 - 1)) (le_n _)) as [A _]. rewrite SO1 in A by lia. exact A. }
  destruct (price_interpolates kind lu xDom J tDom1 N1 ty K o1 cf1 s1 w1 d1 v1 s1' G1 V1 C1 RD1 EQ) as (LV1 & P1 & _).
  destruct (price_interpolates kind lu xDom J tDom2 N2 ty K o2 cf2 s2 w2 d2 v2 s2' G2 V2 C2 RD2 (fun fuel F => proj2 (SO fuel F))) as (LV2 & P2 & _).
  exists (interpolant (nodes xDom J) v1 (S_ d1)), (interpolant (nodes xDom J) v2 (S_ d2)), s1', s2'. split; [intros fuel F; split; [apply P1; lia|now apply P2]|].
  assert (LX : INR (Z.to_nat J - 1) * (xDom / (IZR J - 1)) = xDom).
  { rewrite minus_INR by lia. rewrite INR_IZR_INZ, Z2Nat.id by lia. change (INR 1) with 1. field. lra. }
  assert (N2' : (2 <= Z.to_nat J)%nat) by lia. rewrite <- SE. split.
  - destruct (find_node _ (Z.to_nat J) N2' (S_ d1) ltac:(rewrite LX; exact SX)) as (k & K1 & XK).
    rewrite (proj2 (interpolates _ HH (Z.to_nat J) N2' (nodes xDom J) eq_refl v1 (S_ d1) LV1) k K1 XK).
    destruct (line_mean _ HH v1 k (S_ d1) XK) as (u & U & XU & ->). rewrite XU. eapply Rle_trans; [apply exercise_mean; [exact TY|exact U]|].
    destruct (LE k ltac:(lia)) as [A _]. destruct (LE (k + 1)%nat ltac:(lia)) as [B _]. apply Rplus_le_compat; apply Rmult_le_compat_l; try lra; [exact A|exact B].
  - apply (interpolant_le _ HH (Z.to_nat J) N2' (nodes xDom J) eq_refl); auto; [rewrite LX; exact SX|intros j JJ; now apply LE].
Qed.
Print Assumptions C133_price.

(** Half a year in five steps against a year in ten, call and put, between two nodes. *)
Example C133_ex : forall kind lu mem ty, kind = KExplicit \/ kind = KImplicit -> ty = Call \/ ty = Put ->
  let w := mkMarket 0 [("A"%string, 0%nat)] [] [mkStock (3 / 2) 1 None] [] : Market R in
  let o := o_bs ty 2 1 in
  exists cf1 s1 cf2 s2 p1 p2 s1' s2',
    Fdm_ctor kind 4 5 (1 / 2) 6 (BlackScholesPDE o) o None (Some ThomasAlgorithm) mem w = Ok (cf1, s1) /\
    Fdm_ctor kind 4 5 1 11 (BlackScholesPDE o) o None (Some ThomasAlgorithm) mem w = Ok (cf2, s2) /\
    calculatePrice lu cf1 w 10 s1 = Some (Ok p1, s1') /\ calculatePrice lu cf2 w 10 s2 = Some (Ok p2, s2') /\ exercise ty 2 (3 / 2) <= p1 <= p2.
Proof.
  intros kind lu mem ty KK TY w o.
  destruct (ctor_total _ _ kind 4 5 (1 / 2) 6 (BlackScholesPDE o) o None (Some ThomasAlgorithm) mem w (initial_total ty 2 1 w) ltac:(lia)) as (cf1 & s1 & E1).
  destruct (ctor_total _ _ kind 4 5 1 11 (BlackScholesPDE o) o None (Some ThomasAlgorithm) mem w (initial_total ty 2 1 w) ltac:(lia)) as (cf2 & s2 & E2).
  assert (G1 : gridded kind 4 5 (1 / 2) 6) by (split; [auto|]; unfold ULONG_MOD, INT_MAX; repeat split; first [lia|lra]).
  assert (G2 : gridded kind 4 5 1 11) by (split; [auto|]; unfold ULONG_MOD, INT_MAX; repeat split; first [lia|lra]).
  assert (V1 : vanilla_solver kind 4 5 (1 / 2) 6 ty 2 o cf1 s1) by (split; [exact TY|]; split; [reflexivity|]; eauto).
  assert (V2 : vanilla_solver kind 4 5 1 11 ty 2 o cf2 s2) by (split; [exact TY|]; split; [reflexivity|]; eauto).
  assert (CA2 : calm kind 5 1 11 1 0 0) by (split; [rewrite Rminus_0_r, Rabs_R0; lra|]; split; [lra|]; intros _; lra).
  assert (J0 : (0 <= 5)%Z) by lia.
  destruct (ctor_ok _ _ _ _ _ _ _ _ _ _ _ _ _ _ _ J0 E1) as (_ & _ & _ & _ & _ & _ & _ & IP1 & _).
  destruct (ctor_ok _ _ _ _ _ _ _ _ _ _ _ _ _ _ _ J0 E2) as (_ & _ & _ & _ & _ & _ & _ & IP2 & _).
  destruct (C133_price kind lu 4 5 (1 / 2) 6 1 11 ty 2 o o cf1 s1 cf2 s2 w w (mkStock (3 / 2) 1 None) (mkStock (3 / 2) 1 None) G1 G2 ltac:(lia) ltac:(lra) V1 V2 IP1 IP2)
    as (p1 & p2 & s1' & s2' & SO & B); try reflexivity; try exact CA2; try (cbn; lra).
  destruct (SO 10%nat) as [A1 A2]; [cbn; lia|].
  exists cf1, s1, cf2, s2, p1, p2, s1', s2'. repeat (split; [assumption|]). exact B.
Qed.
