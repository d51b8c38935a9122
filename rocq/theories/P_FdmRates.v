(** Property C132: finite-difference put values fall with the rate and rise with the
    dividend yield. *)
From Coq Require Import String List ZArith Bool Lia Reals Lra Psatz.
From Flocq Require Import Core.
From Verif Require Import M_Num M_Outcome M_Dict M_Stock M_Market M_Payoff M_Option M_Numeric M_Fdm.
From Verif Require Import S_Market S_Model S_Numeric S_Fdm L_Dict L_Numeric L_Fdm L_Convex P_Interpolation P_LinearSystem P_FdmMarch P_FdmScheme P_FdmPrice P_FdmCompare P_FdmConvex P_ConvexPrice.
Import ListNotations.
Local Open Scope R_scope.

(** Two runs on one grid.  The first market has the lower volatility, the higher rate and
    the lower dividend yield.  Nothing ties the rate to the yield in the second. *)
Theorem C132_put : forall kind lu xDom J tDom N K o1 o2 cf1 s1 cf2 s2 w1 w2 d1 d2,
  gridded kind xDom J tDom N ->
  vanilla_solver kind xDom J tDom N Put K o1 cf1 s1 -> vanilla_solver kind xDom J tDom N Put K o2 cf2 s2 ->
  read (optTicker o1) w1 = Ok d1 -> read (optTicker o2) w2 = Ok d2 ->
  calm kind J tDom N (sigma_ d1) (mR w1) (dividend d1) -> calm kind J tDom N (sigma_ d2) (mR w2) (dividend d2) ->
  0 <= K <= xDom -> 0 <= dividend d1 <= mR w1 ->
  0 <= sigma_ d1 <= sigma_ d2 -> mR w2 <= mR w1 -> dividend d1 <= dividend d2 ->
  exists v1 v2 s1' s2', (forall fuel, (Z.to_nat (N - 1) <= fuel)%nat ->
      solve lu cf1 w1 fuel s1 = Some (Ok v1, s1') /\ solve lu cf2 w2 fuel s2 = Some (Ok v2, s2')) /\
    forall j, (j < Z.to_nat J)%nat -> el v1 j <= el v2 j.
Proof.
  intros kind lu xDom J tDom N K o1 o2 cf1 s1 cf2 s2 w1 w2 d1 d2 G V1 V2 RD1 RD2 CA1 CA2 KX QR SG RR QQ.
  destruct (put_layers kind lu xDom J tDom N K o1 cf1 s1 w1 d1 G V1 RD1 CA1 KX QR) as (v1 & s1' & f1 & SO1 & FM1 & I1 & B1 & L1).
  destruct (vanilla_layers kind lu xDom J tDom N Put K o2 cf2 s2 w2 d2 G V2 RD2 (fun _ => CA2)) as (_ & v2 & s2' & f2 & SO2 & FM2 & I2 & L2).
  exists v1, v2, s1', s2'. split; [intros fuel F; split; auto|].
  pose proof G as (KK & HJ & MX & HN & HX & HT).
  assert (PN : 0 < IZR N - 1) by (assert (2 <= IZR N) by (apply IZR_le; lia); lra).
  assert (PJ : 0 < IZR J - 1) by (assert (4 <= IZR J) by (apply IZR_le; lia); lra).
  assert (DT : 0 < tDom / (IZR N - 1)) by (now apply Rdiv_lt_0_compat).
  assert (HH : 0 < xDom / (IZR J - 1)) by (now apply Rdiv_lt_0_compat).
  assert (P : forall i j, (i <= Z.to_nat (N - 1))%nat -> (j < Z.to_nat J)%nat -> 0 <= el (f2 i) j - el (f1 i) j).
  { apply (march_positive kind (bs_operator (sigma_ d2) (mR w2) (dividend d2)) _ _ (nodes xDom J) _ _ (fun i j => el (f2 i) j - el (f1 i) j) KK HH DT); [lia| | | |].
    - intros i I. now apply bs_no_oscillation.
    - intros j JJ. rewrite I1, I2 by easy. lra.
    - intros i I. destruct (B1 (i + 1)%nat ltac:(lia)) as (-> & -> & _). destruct (L2 i I) as (_ & -> & -> & _). cbn [kl kg bs_coefs]. lra.
    - intros i j I JJ. rewrite residual_minus. destruct (L2 i I) as (_ & _ & _ & R2). rewrite (R2 j JJ). rewrite bs_residual by (auto; lia).
      pose proof (L1 i j I JJ) as R1. rewrite bs_residual in R1 by (auto; lia).
      assert (RL : (read_layer kind i <= Z.to_nat (N - 1))%nat) by (destruct KK as [-> | ->]; cbn; lia).
      destruct (B1 _ RL) as (_ & RI & PO & BE).
      set (a := fun j => el (f1 (read_layer kind i)) j) in *. set (n := Z.to_nat J) in *.
      change (lap (sigma_ d1) (mR w1) (dividend d1) (el (f1 (read_layer kind i))) j) with (lap (sigma_ d1) (mR w1) (dividend d1) a j) in R1.
      assert (FA : forall j, (j + 1 < n)%nat -> a (j + 1)%nat <= a j).
      { destruct (chords a n _ HH BE) as [GL _]. intros k A. specialize (GL k (n - 2)%nat ltac:(lia) ltac:(lia)).
        pose proof (PO (n - 2)%nat ltac:(lia)) as P0. change (0 <= a (n - 2)%nat) in P0. change (a (n - 1)%nat = 0) in RI. replace (n - 2 + 1)%nat with (n - 1)%nat in GL by lia. lra. }
      specialize (BE j ltac:(lia)). change (0 <= bend a j) in BE. pose proof (PO j ltac:(lia)) as PJ'. change (0 <= a j) in PJ'.
      assert (SL : a (j + 1)%nat <= a (j - 1)%nat).
      { pose proof (FA j ltac:(lia)) as F1. pose proof (FA (j - 1)%nat ltac:(lia)) as F2. replace (j - 1 + 1)%nat with j in F2 by lia. lra. }
      assert (D : lap (sigma_ d2) (mR w2) (dividend d2) a j = lap (sigma_ d1) (mR w1) (dividend d1) a j
        + (sigma_ d2 * sigma_ d2 - sigma_ d1 * sigma_ d1) * (INR j * INR j) / 2 * bend a j
        + ((mR w1 - mR w2) + (dividend d2 - dividend d1)) * INR j / 2 * (a (j - 1)%nat - a (j + 1)%nat) + (mR w1 - mR w2) * a j) by (unfold lap; field).
      rewrite D. pose proof (pos_INR j) as IJ. assert (S : 0 <= sigma_ d2 * sigma_ d2 - sigma_ d1 * sigma_ d1) by nra.
      assert (0 <= (sigma_ d2 * sigma_ d2 - sigma_ d1 * sigma_ d1) * (INR j * INR j) / 2 * bend a j).
      { apply Rmult_le_pos; [|exact BE]. apply Rmult_le_pos; [|lra]. apply Rmult_le_pos; [exact S|nra]. }
      assert (0 <= ((mR w1 - mR w2) + (dividend d2 - dividend d1)) * INR j / 2 * (a (j - 1)%nat - a (j + 1)%nat)).
      { apply Rmult_le_pos; [|lra]. apply Rmult_le_pos; [|lra]. apply Rmult_le_pos; lra. }
      assert (0 <= (mR w1 - mR w2) * a j) by (apply Rmult_le_pos; lra). lra. }
  intros j JJ. specialize (P _ j (le_n _) JJ). rewrite FM1, FM2 in P. lra.
Qed.
Print Assumptions C132_put.

(** The same for the price at any spot of the grid, with the default interpolation. *)
Theorem C132_price : forall kind lu xDom J tDom N K o1 o2 cf1 s1 cf2 s2 w1 w2 d1 d2,
  gridded kind xDom J tDom N ->
  vanilla_solver kind xDom J tDom N Put K o1 cf1 s1 -> vanilla_solver kind xDom J tDom N Put K o2 cf2 s2 ->
  cInterp cf1 = LinearInterpolation -> cInterp cf2 = LinearInterpolation ->
  read (optTicker o1) w1 = Ok d1 -> read (optTicker o2) w2 = Ok d2 ->
  calm kind J tDom N (sigma_ d1) (mR w1) (dividend d1) -> calm kind J tDom N (sigma_ d2) (mR w2) (dividend d2) ->
  0 <= K <= xDom -> 0 <= dividend d1 <= mR w1 ->
  0 <= sigma_ d1 <= sigma_ d2 -> mR w2 <= mR w1 -> dividend d1 <= dividend d2 ->
  0 <= S_ d2 <= S_ d1 -> S_ d1 <= xDom ->
  exists p1 p2 s1' s2', (forall fuel, (Z.to_nat (N - 1) <= fuel)%nat ->
      calculatePrice lu cf1 w1 fuel s1 = Some (Ok p1, s1') /\ calculatePrice lu cf2 w2 fuel s2 = Some (Ok p2, s2')) /\ p1 <= p2.
Proof.
  intros kind lu xDom J tDom N K o1 o2 cf1 s1 cf2 s2 w1 w2 d1 d2 G V1 V2 C1 C2 RD1 RD2 CA1 CA2 KX QR SG RR QQ SS SX.
  destruct (C132_put kind lu xDom J tDom N K o1 o2 cf1 s1 cf2 s2 w1 w2 d1 d2 G V1 V2 RD1 RD2 CA1 CA2 KX QR SG RR QQ) as (v1 & v2 & s1' & s2' & SO & LE).
  destruct (price_interpolates kind lu xDom J tDom N Put K o1 cf1 s1 w1 d1 v1 s1' G V1 C1 RD1 (fun fuel F => proj1 (SO fuel F))) as (LV1 & P1 & P1').
  destruct (price_interpolates kind lu xDom J tDom N Put K o2 cf2 s2 w2 d2 v2 s2' G V2 C2 RD2 (fun fuel F => proj2 (SO fuel F))) as (LV2 & P2 & _).
  exists (interpolant (nodes xDom J) v1 (S_ d1)), (interpolant (nodes xDom J) v2 (S_ d2)), s1', s2'. split; [intros fuel F; split; auto|].
  destruct (put_layers kind lu xDom J tDom N K o1 cf1 s1 w1 d1 G V1 RD1 CA1 KX QR) as (v & t & f & SO' & FM & _ & B & _).
  assert (EV : v = v1) by (pose proof (SO' _ (le_n _)) as A; rewrite (proj1 (SO _ (le_n _))) in A; congruence). rewrite EV in FM. clear EV.
  destruct (B _ (le_n _)) as (_ & RI & PO & BE). rewrite FM in RI, PO, BE. clear B FM SO'.
  pose proof G as (_ & HJ & _ & _ & HX & _). assert (PJ : 0 < IZR J - 1) by (assert (4 <= IZR J) by (apply IZR_le; lia); lra).
  assert (HH : 0 < xDom / (IZR J - 1)) by (now apply Rdiv_lt_0_compat).
  set (n := Z.to_nat J) in *. assert (N2 : (2 <= n)%nat) by (unfold n; lia).
  assert (LX : INR (n - 1) * (xDom / (IZR J - 1)) = xDom).
  { unfold n. rewrite minus_INR by lia. rewrite INR_IZR_INZ, Z2Nat.id by lia. change (INR 1) with 1. field. lra. }
  assert (FA : forall i j, (i <= j)%nat -> (j < n)%nat -> el v1 j <= el v1 i).
  { destruct (chords (el v1) n _ HH BE) as [GL _]. apply (falls (el v1) n). intros a A. specialize (GL a (n - 2)%nat ltac:(lia) ltac:(lia)).
    pose proof (PO (n - 2)%nat ltac:(lia)). replace (n - 2 + 1)%nat with (n - 1)%nat in GL by lia. lra. }
  apply Rle_trans with (interpolant (nodes xDom J) v1 (S_ d2)).
  - apply (interpolant_falls _ HH n N2 (nodes xDom J) eq_refl v1 LV1 FA); [easy|now rewrite LX].
  - apply (interpolant_le _ HH n N2 (nodes xDom J) eq_refl); auto. rewrite LX. lra.
Qed.
Print Assumptions C132_price.

(** Rate 1/10 and no dividend against rate 0 and yield 1/20. *)
Example C132_ex : forall kind lu mem, kind = KExplicit \/ kind = KImplicit ->
  let w r q := mkMarket r [("A"%string, 0%nat)] [] [mkStock (3 / 2) 1 q] [] : Market R in
  let o := o_bs Put 2 1 in
  exists cf1 s1 cf2 s2 p1 p2 s1' s2',
    Fdm_ctor kind 4 5 1 11 (BlackScholesPDE o) o None (Some ThomasAlgorithm) mem (w (1 / 10) None) = Ok (cf1, s1) /\
    Fdm_ctor kind 4 5 1 11 (BlackScholesPDE o) o None (Some ThomasAlgorithm) mem (w 0 (Some (1 / 20))) = Ok (cf2, s2) /\
    calculatePrice lu cf1 (w (1 / 10) None) 10 s1 = Some (Ok p1, s1') /\
    calculatePrice lu cf2 (w 0 (Some (1 / 20))) 10 s2 = Some (Ok p2, s2') /\ p1 <= p2.
Proof.
  intros kind lu mem KK w o. set (w1 := w (1 / 10) None). set (w2 := w 0 (Some (1 / 20))).
  destruct (ctor_total _ _ kind 4 5 1 11 (BlackScholesPDE o) o None (Some ThomasAlgorithm) mem w1 (initial_total Put 2 1 w1) ltac:(lia)) as (cf1 & s1 & E1).
  destruct (ctor_total _ _ kind 4 5 1 11 (BlackScholesPDE o) o None (Some ThomasAlgorithm) mem w2 (initial_total Put 2 1 w2) ltac:(lia)) as (cf2 & s2 & E2).
  assert (G : gridded kind 4 5 1 11) by (split; [auto|]; unfold ULONG_MOD, INT_MAX; repeat split; first [lia|lra]).
  assert (V1 : vanilla_solver kind 4 5 1 11 Put 2 o cf1 s1) by (split; [now right|]; split; [reflexivity|]; eauto).
  assert (V2 : vanilla_solver kind 4 5 1 11 Put 2 o cf2 s2) by (split; [now right|]; split; [reflexivity|]; eauto).
  assert (CA1 : calm kind 5 1 11 1 (1 / 10) 0) by (split; [rewrite Rabs_pos_eq; lra|]; split; [lra|]; intros _; lra).
  assert (CA2 : calm kind 5 1 11 1 0 (1 / 20)) by (split; [rewrite Rabs_minus_sym, Rabs_pos_eq; lra|]; split; [lra|]; intros _; lra).
  assert (J0 : (0 <= 5)%Z) by lia.
  destruct (ctor_ok _ _ _ _ _ _ _ _ _ _ _ _ _ _ _ J0 E1) as (_ & _ & _ & _ & _ & _ & _ & IP1 & _).
  destruct (ctor_ok _ _ _ _ _ _ _ _ _ _ _ _ _ _ _ J0 E2) as (_ & _ & _ & _ & _ & _ & _ & IP2 & _).
  destruct (C132_price kind lu 4 5 1 11 2 o o cf1 s1 cf2 s2 w1 w2 (mkStock (3 / 2) 1 None) (mkStock (3 / 2) 1 (Some (1 / 20))) G V1 V2 IP1 IP2)
    as (p1 & p2 & s1' & s2' & SO & B); try reflexivity; try exact CA1; try exact CA2; try (cbn; lra).
  destruct (SO 10%nat) as [A1 A2]; [cbn; lia|].
  exists cf1, s1, cf2, s2, p1, p2, s1', s2'. repeat (split; [assumption|]). exact B.
Qed.
