(** Properties C114-C115: what the finite-difference solvers compute in binary64 keeps its
    sign and the order of its data, whatever the rounding errors. *)
From Coq Require Import String List ZArith Bool Lia Reals Lra.
From Flocq Require Import Core BinarySingleNaN Plus_error Relative.
From Verif Require Import M_Num M_Outcome M_Numeric M_Stock M_Market M_Payoff M_Option M_Fdm
  S_Market S_Double S_Order S_Fdm S_FdmDouble L_B64 L_Order L_McDouble L_McRound L_Fdm L_FdmDouble P_FdmMarch.
Import ListNotations.
Local Open Scope R_scope.

Section Run.
Variable fexp flog : b64 -> b64.
Local Notation num := (B64 fexp flog).

Lemma ctor_grid64 : forall kind xDom J tDom N p o ip mem w0 cf s,
  (4 <= J < ULONG_MOD)%Z ->
  @Fdm_ctor b64 num kind xDom J tDom N p o ip (Some ThomasAlgorithm) mem w0 = Ok (cf, s) ->
  let n := Z.to_nat J in
  cPde cf = p /\ on_grid kind (cDt cf) (cDx cf) (cDx2 cf) (cX cf) tDom cf /\ sized cf s n /\ (4 <= n)%nat /\
  fTPrev s = b64_ofZ 0 /\ fTCurr s = b64_ofZ 0 /\ (kind <> KExplicit -> length (fB s) = (n - 2)%nat) /\
  cDt cf = b64_div tDom (b64_ofZ (ulsub N 1)) /\ cDx cf = b64_div xDom (b64_ofZ (ulsub J 1)) /\ cDx2 cf = b64_mul (cDx cf) (cDx cf) /\
  cX cf = map (fun i => b64_mul (b64_ofZ (Z.of_nat i)) (cDx cf)) (seq 0 n) /\
  (forall j, (j < n)%nat -> initialCondition p w0 (at64 (cX cf) j) = Ok (at64 (fOld s) j)) /\
  (forall j, at64 (fNew s) j = b64_ofZ 0).
Proof.
  intros kind xDom J tDom N p o ip mem w0 cf s HJ E n. assert (J0 : (0 <= J)%Z) by lia.
  destruct (ctor_ok _ _ _ _ _ _ _ _ _ _ _ _ _ _ _ J0 E) as (SC & XD & EJ & TD & EN & PD & _ & _ & DX & DX2 & DT & X & LO & IV & FN & TP & TC & _ & LB).
  split; [exact PD|]. split; [repeat split; auto|]. split; [apply (ctor_sized _ _ _ _ _ _ _ _ _ _ _ _ _ _ _ (conj J0 (proj2 HJ)) E)|].
  split; [unfold n; lia|]. split; [exact TP|]. split; [exact TC|]. split; [intros NE; apply LB; exact NE|].
  split; [exact DT|]. split; [exact DX|]. split; [exact DX2|]. split; [exact X|].
  split; [exact IV|]. intros j. rewrite FN. unfold at64. apply nth_repeat.
Qed.

(** ** C114: no value is negative *)
Theorem C114_nonnegative : forall lu kind xDom J tDom N p o ip mem w0 cf s w k fuel,
  (4 <= J < ULONG_MOD)%Z -> (J - 4 <= INT_MAX)%Z ->
  @Fdm_ctor b64 num kind xDom J tDom N p o ip (Some ThomasAlgorithm) mem w0 = Ok (cf, s) -> evaluates p w k ->
  let n := Z.to_nat J in
  usable cf ->
  (forall u j, running tDom u -> (1 <= j <= n - 2)%nat -> sound_node fexp flog kind (cDt cf) (cDx cf) (cDx2 cf) k u (at64 (cX cf) j)) ->
  (forall t, read_at kind (cDt cf) tDom t -> nonneg_data k (at64 (cX cf) 0) (at64 (cX cf) (n - 1)) t) ->
  (forall j v, (j < n)%nat -> initialCondition p w0 (at64 (cX cf) j) = Ok v -> nonneg v) ->
  match @solve b64 num lu cf w fuel s with
  | Some (Ok v, _) => length v = n /\ forall j, (j < n)%nat -> nonneg (at64 v j)
  | Some _ => False
  | None => True
  end.
Proof.
  intros lu kind xDom J tDom N p o ip mem w0 cf s w k fuel HJ MX E EV n (FD & PD & FX & PX) SN DATA IC.
  destruct (ctor_grid64 _ _ _ _ _ _ _ _ _ _ _ _ HJ E) as (PE & OG & SZ & N4 & TP & TC & LB & _ & _ & _ & _ & IV & FN). fold n in SZ, N4, LB, IV.
  rewrite <- PE in EV.
  assert (NS : nonneg_state fexp flog kind n s).
  { split; [now rewrite TP, TC|]. split; [rewrite TP; exact nonneg_0|]. split; [exact LB|]. split.
    - intros j J0. exact (IC j _ J0 (IV j J0)).
    - intros j J0. change (nonneg (at64 (fNew s) j)). rewrite FN. exact nonneg_0. }
  pose proof (march_nonneg fexp flog lu kind n (cDt cf) (cDx cf) (cDx2 cf) (cX cf) tDom N4 ltac:(lia) FD PD FX PX cf w k OG EV SN DATA fuel s SZ NS) as M.
  unfold solve. destruct (@march b64 num lu cf w fuel s) as [[[[]|e|] s1]|]; try easy.
  cbn. destruct M as ((_ & _ & _ & _ & NN) & (_ & _ & _ & _ & LN)). split; [exact LN|exact NN].
Qed.

(** ** C115: values are ordered like the data *)
Theorem C115_comparison : forall lu kind xDom J tDom N p p' o o' ip ip' mem mem' w0 w0' cf cf' s s' w w' k k' fuel,
  (4 <= J < ULONG_MOD)%Z -> (J - 4 <= INT_MAX)%Z ->
  @Fdm_ctor b64 num kind xDom J tDom N p o ip (Some ThomasAlgorithm) mem w0 = Ok (cf, s) -> evaluates p w k ->
  @Fdm_ctor b64 num kind xDom J tDom N p' o' ip' (Some ThomasAlgorithm) mem' w0' = Ok (cf', s') -> evaluates p' w' k' ->
  let n := Z.to_nat J in
  usable cf ->
  (forall u j, running tDom u -> (1 <= j <= n - 2)%nat -> sound_node fexp flog kind (cDt cf) (cDx cf) (cDx2 cf) k u (at64 (cX cf) j)) ->
  same_operator k k' ->
  (forall t, read_at kind (cDt cf) tDom t -> ordered_data k k' (at64 (cX cf) 0) (at64 (cX cf) (n - 1)) t) ->
  (forall j v v', (j < n)%nat -> initialCondition p w0 (at64 (cX cf) j) = Ok v -> initialCondition p' w0' (at64 (cX cf) j) = Ok v' -> below v v') ->
  match @solve b64 num lu cf w fuel s, @solve b64 num lu cf' w' fuel s' with
  | Some (Ok v, _), Some (Ok v', _) => length v = n /\ length v' = n /\ forall j, (j < n)%nat -> below (at64 v j) (at64 v' j)
  | None, None => True
  | _, _ => False
  end.
Proof.
  intros lu kind xDom J tDom N p p' o o' ip ip' mem mem' w0 w0' cf cf' s s' w w' k k' fuel HJ MX E EV E' EV' n (FD & PD & FX & PX) SN SAME DATA IC.
  destruct (ctor_grid64 _ _ _ _ _ _ _ _ _ _ _ _ HJ E) as (PE & OG & SZ & N4 & TP & TC & LB & D1 & D2 & D3 & D4 & IV & FN). fold n in SZ, N4, LB, D4, IV.
  destruct (ctor_grid64 _ _ _ _ _ _ _ _ _ _ _ _ HJ E') as (PE' & OG' & SZ' & _ & TP' & TC' & LB' & D1' & D2' & D3' & D4' & IV' & FN'). fold n in SZ', LB', D4', IV'.
  rewrite <- PE in EV. rewrite <- PE' in EV'.
  assert (Q1 : cDt cf' = cDt cf) by congruence. assert (Q2 : cDx cf' = cDx cf) by congruence. assert (Q3 : cDx2 cf' = cDx2 cf) by congruence.
  assert (Q4 : cX cf' = cX cf) by (rewrite D4, D4', Q2; reflexivity). rewrite Q1, Q2, Q3, Q4 in OG'. rewrite Q4 in IV'.
  assert (RS : rel_states fexp flog kind n s s').
  { split; [congruence|]. split; [congruence|]. split; [congruence|]. split; [rewrite TP; exact nonneg_0|]. split; [auto|]. split.
    - intros j J0. exact (IC j _ _ J0 (IV j J0) (IV' j J0)).
    - intros j J0. change (below (at64 (fNew s) j) (at64 (fNew s') j)). rewrite FN, FN'. apply below_refl. }
  pose proof (march_rel fexp flog lu kind n (cDt cf) (cDx cf) (cDx2 cf) (cX cf) tDom N4 ltac:(lia) PD FX PX cf cf' w w' k k' OG OG' EV EV' SN SAME DATA fuel s s' SZ SZ' RS) as M.
  unfold solve. destruct (@march b64 num lu cf w fuel s) as [[[[]|e|] s1]|], (@march b64 num lu cf' w' fuel s') as [[[[]|e'|] s1']|]; try easy.
  cbn. destruct M as ((_ & _ & _ & _ & _ & _ & NN) & (_ & _ & _ & _ & LN) & (_ & _ & _ & _ & LN')). split; [exact LN|]. split; [exact LN'|exact NN].
Qed.
End Run.
Print Assumptions C114_nonnegative.
Print Assumptions C115_comparison.

(** ** When nodes are sound *)
Lemma sub_finite : forall x y, finite (b64_sub x y) -> finite x /\ finite y.
Proof. intros [s|[|]| |s m e H] [s'|[|]| |s' m' e' H'] F; now split. Qed.
Lemma sub_error : forall x y, finite (b64_sub x y) -> exists e, Rabs e <= uu /\ val (b64_sub x y) = (val x - val y) * (1 + e).
Proof.
  intros x y F. destruct (sub_finite x y F) as [FX FY]. destruct (val_sub x y FX FY) as [_ V].
  rewrite (finite_rnd _ _ F V).
  destruct (FLT_plus_error_N_ex radix2 (-1074) 53 (fun z => negb (Z.even z)) (val x) (- val y) (fmt x FX) (generic_format_opp _ _ _ (fmt y FY))) as (e & E1 & E2).
  exists e. split; [|exact E2]. eapply Rle_trans; [exact E1|]. change (u_ro radix2 53) with uu.
  pose proof uu_pos. apply Rmult_le_reg_r with (1 + uu); [lra|]. unfold Rdiv. rewrite Rmult_assoc, Rinv_l by lra. nra.
Qed.
Lemma val_opp : forall x, finite x -> finite (b64_opp x) /\ val (b64_opp x) = - val x.
Proof. intros x F. assert (G : finite (b64_opp x)) by now destruct x. split; [exact G|]. rewrite !val_finite by easy. apply B2R_Bopp. Qed.

Definition BIG : R := bpow radix2 1010.
Lemma BIG_INF : 0 < BIG < INF.
Proof. split; [apply bpow_gt_0|apply bpow_lt; reflexivity]. Qed.
Lemma fl_bpow : forall e, (-1074 <= e < 1024)%Z -> fl (bpow radix2 e) = bpow radix2 e.
Proof.
  intros e H. unfold fl, rnd. rewrite round_generic; [|typeclasses eauto|].
  - apply clamp_id. pose proof (bpow_gt_0 radix2 e). pose proof INF_pos. assert (bpow radix2 e < INF) by (apply bpow_lt; lia). lra.
  - apply generic_format_bpow. unfold FLT_exp. lia.
Qed.
Lemma fl_BIG : forall r, Rabs r <= BIG -> Rabs (fl r) <= BIG.
Proof.
  intros r H. apply Rabs_le_inv in H. assert (Q : fl BIG = BIG) by (apply fl_bpow; lia). apply Rabs_le. split.
  - rewrite <- Q, <- fl_opp. apply fl_le. lra.
  - rewrite <- Q. apply fl_le. lra.
Qed.
Lemma fl_finite : forall z r, notnan z -> val z = fl r -> Rabs r <= BIG -> finite z /\ Rabs (val z) <= BIG.
Proof.
  intros z r N V B. apply fl_BIG in B. rewrite <- V in B. split; [|exact B]. pose proof BIG_INF. apply between_finite; [exact N|]. apply Rabs_le_inv in B. lra.
Qed.
Lemma double_exact : forall A, finite A -> Rabs (val A) <= bpow radix2 1000 ->
  finite (b64_mul (b64_ofZ 2) A) /\ val (b64_mul (b64_ofZ 2) A) = 2 * val A.
Proof.
  intros A F B. assert (V2 : val (b64_ofZ 2) = 2).
  { rewrite (proj2 (val_ofZ 2)). exact (fl_bpow 1 ltac:(lia)). }
  destruct (val_mul (b64_ofZ 2) A eq_refl F) as [N V]. rewrite V2 in V.
  assert (B1 : bpow radix2 1000 * 2 <= BIG).
  { change 2 with (bpow radix2 1). rewrite <- bpow_plus. apply bpow_le. lia. }
  assert (BB : Rabs (2 * val A) <= BIG) by (rewrite Rabs_mult, (Rabs_pos_eq 2) by lra; lra).
  split; [now apply (fl_finite _ (2 * val A))|].
  rewrite V. unfold fl, rnd. rewrite round_generic; [|typeclasses eauto|].
  - apply clamp_id. pose proof BIG_INF. apply Rabs_le_inv in BB. lra.
  - apply generic_format_FLT. destruct (FLT_format_generic radix2 (-1074) 53 (val A) (fmt A F)) as [f E1 E2 E3].
    exists (Float radix2 (Fnum f) (Fexp f + 1)); [|exact E2|cbn; lia].
    rewrite E1. unfold F2R. cbn [Fnum Fexp]. rewrite bpow_plus. change (bpow radix2 1) with 2. ring.
Qed.

Section Criteria.
Variables D A B Q : b64.
Hypothesis OD : ordinary D.
Hypothesis FA : finite A. Hypothesis FB : finite B. Hypothesis FQ : finite Q.
Hypothesis BA : Rabs (val B) <= val A.
Hypothesis AD : val A <= bpow radix2 50 * val D.
Hypothesis QB : - bpow radix2 1000 <= val Q <= 0.

Local Notation HH := (bpow radix2 1000).
Lemma sizes : 0 < val D <= HH /\ 0 <= val A <= HH /\ - val A <= val B <= val A /\ 8 * HH <= BIG /\ uu * (8 * val A) <= val D.
Proof.
  destruct OD as (FD & D0 & D1). pose proof (bpow_gt_0 radix2 (-900)). pose proof (bpow_le radix2 900 1000 ltac:(lia)) as L.
  assert (A1 : val A <= HH).
  { replace HH with (bpow radix2 50 * bpow radix2 950) by (rewrite <- bpow_plus; reflexivity).
    pose proof (bpow_le radix2 900 950 ltac:(lia)). pose proof (bpow_gt_0 radix2 50). nra. }
  pose proof (Rabs_pos (val B)). split; [lra|]. split; [lra|]. split; [apply Rabs_le_inv; lra|]. split.
  - change 8 with (bpow radix2 3). unfold BIG. rewrite <- bpow_plus. apply bpow_le. lia.
  - unfold uu. assert (E : bpow radix2 (-52) * bpow radix2 50 = / 4) by (rewrite <- bpow_plus; cbn; lra).
    pose proof (bpow_gt_0 radix2 (-52)). nra.
Qed.
Lemma abs_le : forall r, - (8 * HH) <= r <= 8 * HH -> Rabs r <= BIG.
Proof. intros r R. destruct sizes as (_ & _ & _ & S & _). apply Rabs_le. lra. Qed.
Lemma lower_ok : finite (b64_sub A B) /\ 0 <= val (b64_sub A B) /\ exists e, Rabs e <= uu /\ val (b64_sub A B) = (val A - val B) * (1 + e).
Proof.
  destruct sizes as (_ & SA & SB & _). destruct (val_sub A B FA FB) as [N V].
  destruct (fl_finite _ _ N V) as [F _]; [apply abs_le; lra|]. split; [exact F|]. split; [rewrite V; apply fl_nonneg; lra|now apply sub_error].
Qed.
Lemma upper_ok : finite (b64_add A B) /\ 0 <= val (b64_add A B) /\ exists e, Rabs e <= uu /\ val (b64_add A B) = (val A + val B) * (1 + e).
Proof.
  destruct sizes as (_ & SA & SB & _). destruct (val_add A B FA FB) as [N V].
  destruct (fl_finite _ _ N V) as [F _]; [apply abs_le; lra|]. split; [exact F|]. split; [rewrite V; apply fl_nonneg; lra|now apply add_error].
Qed.
Lemma explicit_criterion : 2 * val A - val Q <= val D ->
  nonneg (b64_sub A B) /\ nonneg (b64_add A B) /\ nonneg (b64_add (b64_sub D (b64_mul (b64_ofZ 2) A)) Q).
Proof.
  intros L. destruct sizes as (SD & SA & SB & _). destruct OD as (FD & _). split; [intros _; apply lower_ok|]. split; [intros _; apply upper_ok|].
  intros _. destruct (double_exact A FA) as [F2 V2]; [apply Rabs_le; lra|]. destruct (val_sub D _ FD F2) as [N1 V1]. rewrite V2 in V1.
  destruct (fl_finite _ _ N1 V1) as [F1 _]; [apply abs_le; lra|]. destruct (val_add _ Q F1 FQ) as [_ V]. rewrite V.
  apply fl_nonneg. rewrite V1. assert (X : fl (- val Q) <= fl (val D - 2 * val A)) by (apply fl_le; lra).
  rewrite fl_opp, (fl_val Q) in X; auto using finite_notnan. lra.
Qed.

(** A diagonal whose first part [m] is negative enough. *)
Lemma dominant_criterion : forall a m g, finite a -> finite m -> finite g -> 0 <= val a -> - (4 * HH) <= val m <= 0 -> 0 <= val g ->
  val g <= fl (- (val m + val a)) -> val m + val a <= - (val D / 8) -> dominant_row a (b64_add m Q) g.
Proof.
  intros a m g F1 F2 F3 A0 M0 G0 G L. destruct sizes as (_ & SA & _). destruct (val_add m Q F2 FQ) as [N V].
  destruct (fl_finite _ _ N V) as [F _]; [apply abs_le; lra|].
  assert (LE : val (b64_add m Q) <= val m).
  { rewrite V. apply Rle_trans with (fl (val m)); [apply fl_le; lra|]. rewrite fl_val; auto using finite_notnan; lra. }
  destruct (val_add _ a F F1) as [_ V2].
  split; [exact F1|]. split; [exact F|]. split; [exact F3|]. split; [exact A0|]. split; [exact G0|]. split.
  - assert (Q1 : val (b64_add (b64_add m Q) a) <= - bpow radix2 (-903)).
    { destruct OD as (_ & D0 & _). rewrite V2. rewrite <- (fl_bpow (-903)) by lia. rewrite <- fl_opp. apply fl_le.
      assert (E : bpow radix2 (-903) = bpow radix2 (-900) / 8) by (replace (-903)%Z with (-900 + -3)%Z by lia; rewrite bpow_plus; change (bpow radix2 (-3)) with (/ 8); lra). lra. }
    pose proof (bpow_gt_0 radix2 (-903)). lra.
  - eapply Rle_trans; [exact G|]. rewrite V2, <- fl_opp. apply fl_le. lra.
Qed.
Lemma uu_small : uu * val D <= val D / 1000 /\ uu * val A <= val D / 8 /\ uu <= / 1000.
Proof.
  destruct sizes as (SD & SA & _ & _ & UA). assert (X : uu <= / 1000).
  { unfold uu. pose proof (bpow_le radix2 (-52) (-10) ltac:(lia)) as X. change (bpow radix2 (-10)) with (/ 1024) in X. lra. }
  split; [nra|]. split; [lra|exact X].
Qed.
Lemma sum_first : forall z, finite z -> 0 <= val z <= 2 * val A ->
  let m := b64_sub (b64_opp D) z in
  finite m /\ - (4 * HH) <= val m <= 0 /\ val m <= - (val D + val z) * (1 - uu).
Proof.
  intros z FZ Z m. destruct sizes as (SD & SA & _). destruct OD as (FD & _). destruct (val_opp D FD) as [FO VO].
  destruct (val_sub _ _ FO FZ) as [N1 V1]. fold m in N1, V1. rewrite VO in V1.
  destruct (fl_finite _ _ N1 V1) as [F1 B1]; [apply abs_le; lra|]. split; [exact F1|].
  destruct (sub_error _ _ F1) as (e1 & E1 & W1). rewrite VO in W1. apply Rabs_le_inv in E1. fold m in W1.
  pose proof uu_pos as UU. split; [|rewrite W1; nra]. split; [|rewrite V1; apply fl_nonpos; lra].
  rewrite V1. assert (T : fl (- (4 * HH)) = - (4 * HH)).
  { rewrite fl_opp. f_equal. replace (4 * HH) with (bpow radix2 1002) by (replace 1002%Z with (2 + 1000)%Z by lia; rewrite bpow_plus; reflexivity). apply fl_bpow. lia. }
  rewrite <- T. apply fl_le. lra.
Qed.
Lemma implicit_criterion : dominant_row (b64_sub A B) (b64_add (b64_sub (b64_opp D) (b64_mul (b64_ofZ 2) A)) Q) (b64_add A B).
Proof.
  destruct sizes as (SD & SA & SB & _). destruct uu_small as (U1 & U2 & U3). destruct (double_exact A FA) as [F2 V2]; [apply Rabs_le; lra|].
  destruct (sum_first _ F2 ltac:(rewrite V2; lra)) as (F1 & B1 & M1). rewrite V2 in M1.
  destruct lower_ok as (FL & PL & e2 & E2 & W2). destruct upper_ok as (FU & PU & _).
  pose proof uu_pos as UU. apply Rabs_le_inv in E2.
  set (m := b64_sub (b64_opp D) (b64_mul (b64_ofZ 2) A)) in *.
  assert (L1 : val (b64_sub A B) <= val A - val B + 2 * (uu * val A)) by (rewrite W2; nra).
  assert (KEY : val m + val (b64_sub A B) <= - (val A + val B) - val D / 8) by lra.
  apply dominant_criterion; auto; [|lra].
  destruct (val_add A B FA FB) as [_ V]. rewrite V. apply fl_le. lra.
Qed.
Lemma half_val : val (b64_div (b64_ofZ 5) (b64_ofZ 10)) = / 2.
Proof. vm_compute. lra. Qed.
Lemma halved : forall h z, finite h -> val h = / 2 -> finite z -> 0 <= val z <= 3 * HH ->
  finite (b64_mul h z) /\ 0 <= val (b64_mul h z) <= val z / 2 + uu * val z + eta0 /\ val (b64_mul h z) = fl (val z / 2).
Proof.
  intros h z FH VH FZ Z. destruct sizes as (_ & SA & _). destruct (val_mul h z FH FZ) as [N V]. rewrite VH in V.
  destruct (fl_finite _ _ N V) as [F _]; [apply abs_le; lra|]. split; [exact F|]. split; [|rewrite V; f_equal; lra].
  split; [rewrite V; apply fl_nonneg; lra|]. rewrite (finite_rnd _ _ F V). destruct (rnd_error (/ 2 * val z)) as (e & n & E & N' & ->).
  apply Rabs_le_inv in E. apply Rabs_le_inv in N'. nra.
Qed.
Lemma cn_criterion : forall h, finite h -> val h = / 2 ->
  dominant_row (b64_mul h (b64_sub A B)) (b64_add (b64_sub (b64_opp D) A) Q) (b64_mul h (b64_add A B)).
Proof.
  intros h FH VH. destruct sizes as (SD & SA & SB & _). destruct uu_small as (U1 & U2 & U3).
  destruct (sum_first A FA ltac:(lra)) as (F1 & B1 & M1).
  destruct lower_ok as (FL & PL & e2 & E2 & W2). destruct upper_ok as (FU & PU & e3 & E3 & W3).
  pose proof uu_pos as UU. apply Rabs_le_inv in E2. apply Rabs_le_inv in E3.
  assert (L1 : val (b64_sub A B) <= val A - val B + 2 * (uu * val A)) by (rewrite W2; nra).
  assert (R1 : val (b64_add A B) <= val A + val B + 2 * (uu * val A)) by (rewrite W3; nra).
  assert (UA : uu * val A <= val A) by nra.
  destruct (halved h _ FH VH FL ltac:(lra)) as (G1 & G2 & _). destruct (halved h _ FH VH FU ltac:(lra)) as (G4 & G5 & G6).
  set (m := b64_sub (b64_opp D) A) in *.
  assert (T : eta0 <= val D / 1000).
  { destruct OD as (_ & D0 & _). unfold eta0. pose proof (bpow_le radix2 (-1074) (-900 + -10) ltac:(lia)) as X.
    rewrite bpow_plus in X. change (bpow radix2 (-10)) with (/ 1024) in X. lra. }
  assert (UL : uu * val (b64_sub A B) <= uu * (val A - val B) + / 1000 * (2 * (uu * val A))).
  { assert (X := Rmult_le_compat_l uu _ _ (Rlt_le _ _ (proj1 UU)) L1). assert (Y : 0 <= uu * val A) by nra. assert (Z := Rmult_le_compat_r (2 * (uu * val A)) _ _ ltac:(lra) U3). lra. }
  assert (UB : uu * (val A - val B) <= 2 * (uu * val A)) by nra.
  assert (KEY : val m + val (b64_mul h (b64_sub A B)) <= - (val (b64_add A B) / 2) - val D / 8) by lra.
  apply dominant_criterion; auto; try lra. rewrite G6. apply fl_le. lra.
Qed.
End Criteria.

Lemma half_ok : forall fexp flog, finite (@nhalf b64 (B64 fexp flog)) /\ val (@nhalf b64 (B64 fexp flog)) = / 2.
Proof. intros fexp flog. split; [reflexivity|]. exact half_val. Qed.

(** Sound nodes from conditions on the products alone. *)
Theorem C114_nodes : forall fexp flog kind dt dx dx2 (k : Coefs b64) u x,
  let half := @nhalf b64 (B64 fexp flog) in
  let quiet_at v := quiet kind dx2 (b64_mul dt (kd k v x)) (b64_mul (b64_mul (b64_mul half dt) dx) (kc k v x))
    (match kind with KCrankNicolson => b64_mul (b64_mul (b64_mul half dt) dx2) (kr k v x) | _ => b64_mul (b64_mul dt dx2) (kr k v x) end) in
  ordinary dx2 -> quiet_at u -> quiet_at (b64_add u dt) -> sound_node fexp flog kind dt dx dx2 k u x.
Proof.
  intros fexp flog kind dt dx dx2 k u x half quiet_at OD Q0 Q1. destruct (half_ok fexp flog) as [FH VH]. fold half in FH, VH.
  unfold quiet_at in *. destruct kind.
  - destruct Q0 as (FA & FB & FQ & BA & AD & QB & L). exact (explicit_criterion _ _ _ _ OD FA FB FQ BA AD QB L).
  - destruct Q1 as (FA & FB & FQ & BA & AD & QB & _). exact (implicit_criterion _ _ _ _ OD FA FB FQ BA AD QB).
  - destruct Q1 as (FA & FB & FQ & BA & AD & QB & _). split; [exact (cn_criterion _ _ _ _ OD FA FB FQ BA AD QB half FH VH)|].
    destruct Q0 as (FA0 & FB0 & FQ0 & BA0 & AD0 & QB0 & L).
    destruct (val_opp half FH) as [FO VO]. rewrite VH in VO.
    destruct (sizes _ _ _ OD BA0 AD0) as (SD & SA & SB & _).
    assert (NP : forall z, finite z -> 0 <= val z <= 3 * bpow radix2 1000 -> finite_nonpos (b64_mul (b64_opp half) z)).
    { intros z FZ Z. destruct (val_mul _ z FO FZ) as [N V]. rewrite VO in V.
      destruct (fl_finite _ _ N V) as [F _]; [apply (abs_le _ _ _ OD BA0 AD0); lra|]. split; [exact F|]. rewrite V. apply fl_nonpos. lra. }
    destruct (lower_ok _ _ _ _ OD FA0 FB0 BA0 AD0 QB0) as (FL & PL & e2 & E2 & W2). destruct (upper_ok _ _ _ _ OD FA0 FB0 BA0 AD0 QB0) as (FU & PU & e3 & E3 & W3).
    destruct (uu_small _ _ _ OD BA0 AD0) as (_ & _ & U3). apply Rabs_le_inv in E2. apply Rabs_le_inv in E3.
    assert (NL := NP _ FL ltac:(split; [exact PL|rewrite W2; nra])). assert (NU := NP _ FU ltac:(split; [exact PU|rewrite W3; nra])).
    split; [exact NL|]. split; [exact NU|].
    pose proof OD as (FD & _). destruct (val_opp dx2 FD) as [FN VN].
    destruct (val_add _ _ FN FA0) as [N1 V1]. rewrite VN in V1.
    destruct (fl_finite _ _ N1 V1) as [F1 _]; [apply (abs_le _ _ _ OD BA0 AD0); lra|].
    assert (LE : val (b64_add (b64_opp dx2) (b64_mul dt (kd k u x))) <= val (b64_mul (b64_mul (b64_mul half dt) dx2) (kr k u x))).
    { rewrite V1, <- (fl_val (b64_mul (b64_mul (b64_mul half dt) dx2) (kr k u x))) by auto using finite_notnan. apply fl_le. lra. }
    assert (GE : - (2 * bpow radix2 1000) <= val (b64_add (b64_opp dx2) (b64_mul dt (kd k u x)))).
    { rewrite V1. replace (2 * bpow radix2 1000) with (bpow radix2 1001) by (replace 1001%Z with (1 + 1000)%Z by lia; rewrite bpow_plus; reflexivity).
      rewrite <- (fl_bpow 1001) by lia. rewrite <- fl_opp. apply fl_le.
      replace (bpow radix2 1001) with (2 * bpow radix2 1000) by (replace 1001%Z with (1 + 1000)%Z by lia; rewrite bpow_plus; reflexivity). lra. }
    destruct (val_sub _ _ F1 FQ0) as [N2 V2]. destruct (fl_finite _ _ N2 V2) as [F2 _]; [apply (abs_le _ _ _ OD BA0 AD0); lra|].
    assert (LZ : val (b64_sub (b64_add (b64_opp dx2) (b64_mul dt (kd k u x))) (b64_mul (b64_mul (b64_mul half dt) dx2) (kr k u x))) <= 0)
      by (rewrite V2; apply fl_nonpos; lra).
    exact (conj F2 LZ).
Qed.
Print Assumptions C114_nodes.

(** ** Vanilla options under the Black-Scholes equation *)
Definition coupon64 (d : StockData b64) : b64 := match getCoupon d with Some c => c | None => b64_ofZ 0 end.
Lemma bs_evaluates64 : forall fexp flog (o : Option b64) w d ty K,
  read (optTicker o) w = Ok d -> optPayoff o = PVanilla ty K ->
  evaluates (@BlackScholesPDE b64 (B64 fexp flog) o) w
    (@bs_data b64 (B64 fexp flog) (getSigma d) (getR w) (coupon64 d) (PayoffType_eqb ty Call) K (optT o)).
Proof.
  intros fexp flog o w d ty K RD PO t x.
  cbn [BlackScholesPDE diffusion convection reaction rightHandSide boundaryLeft boundaryRight bs_data kd kc kr kf kl kg].
  unfold bs_diffusion, bs_convection, bs_reaction, bs_rightHandSide, bs_boundaryLeft, bs_boundaryRight.
  change (stock_of o w) with (read (optTicker o) w). rewrite RD, PO. cbn [bind payoff_clone singleStrike getPayoffType].
  destruct (PayoffType_eqb ty Call); repeat split.
Qed.

Lemma sub_nn : forall x y, notnan (b64_sub x y) -> notnan x /\ notnan y.
Proof. intros [s|[|]| |s m e H] [s'|[|]| |s' m' e' H'] F; now split. Qed.
Lemma sub_ge : forall x y, below y x -> nonneg (b64_sub x y).
Proof.
  intros x y H N. destruct (sub_nn _ _ N) as [NX NY]. specialize (H NY NX). pose proof INF_pos. cases x NX.
  - cases y NY.
    + rewrite (proj2 (val_sub x y F F0)). apply fl_nonneg. lra.
    + rewrite (sub_inf x true N). change (0 <= INF). lra.
    + infs in H. pose proof (val_bounds x F). lra.
  - infs in H. cases y NY; [pose proof (val_bounds y F); lra|easy|infs in H; lra].
  - destruct y as [s|[|]| |s m e B]; try easy; change (0 <= INF); lra.
Qed.
Section Vanilla.
Variable fexp flog : b64 -> b64.
Local Notation num := (B64 fexp flog).
(** A solver for a vanilla option as the constructor leaves it, and the equation that it
    solves in market [w]. *)
Definition vanilla64 (kind : SchemeKind) xDom (J : Z) tDom (N : Z) (ty : PayoffType) (K : b64) (o : Option b64) (cf : Conf b64) (s : Fdm b64) : Prop :=
  (4 <= J < ULONG_MOD)%Z /\ (J - 4 <= INT_MAX)%Z /\ optPayoff o = PVanilla ty K /\
  exists ip mem w0, @Fdm_ctor b64 num kind xDom J tDom N (@BlackScholesPDE b64 num o) o ip (Some ThomasAlgorithm) mem w0 = Ok (cf, s).
Definition bs_nodes (kind : SchemeKind) (J : Z) (cf : Conf b64) (sigma r c : b64) : Prop :=
  usable cf /\
  forall j, (1 <= j <= Z.to_nat J - 2)%nat ->
    sound_node fexp flog kind (cDt cf) (cDx cf) (cDx2 cf) (@bs_data b64 num sigma r c true (b64_ofZ 0) (b64_ofZ 0)) (b64_ofZ 0) (at64 (cX cf) j).
(** The present value of the strike as the boundary condition of a call computes it. *)
Definition strike_value (K r mat t : b64) : b64 := b64_mul K (fexp (b64_mul (b64_opp r) (b64_sub mat t))).

Lemma nodes_any : forall kind dt dx dx2 sigma r c call K mat u x,
  sound_node fexp flog kind dt dx dx2 (@bs_data b64 num sigma r c true (b64_ofZ 0) (b64_ofZ 0)) (b64_ofZ 0) x ->
  sound_node fexp flog kind dt dx dx2 (@bs_data b64 num sigma r c call K mat) u x.
Proof. intros kind dt dx dx2 sigma r c call K mat u x H. exact H. Qed.

Theorem C114_put : forall lu kind xDom J tDom N K o cf s w d fuel,
  vanilla64 kind xDom J tDom N Put K o cf s -> read (optTicker o) w = Ok d ->
  bs_nodes kind J cf (getSigma d) (getR w) (coupon64 d) -> nonneg K ->
  match @solve b64 num lu cf w fuel s with
  | Some (Ok v, _) => length v = Z.to_nat J /\ forall j, (j < Z.to_nat J)%nat -> nonneg (at64 v j)
  | Some _ => False
  | None => True
  end.
Proof.
  intros lu kind xDom J tDom N K o cf s w d fuel (HJ & MX & PO & ip & mem & w0 & E) RD (US & SN) PK.
  apply (C114_nonnegative fexp flog lu kind xDom J tDom N _ o ip mem w0 cf s w _ fuel HJ MX E (bs_evaluates64 fexp flog o w d Put K RD PO) US).
  - intros u j _ JJ. apply nodes_any. now apply SN.
  - intros t _. split; [|split].
    + intros x _. cbn [kf bs_data]. change (val (b64_ofZ 0) <= 0). rewrite zero_val. lra.
    + exact PK.
    + exact nonneg_0.
  - intros j v _ IV. cbn [initialCondition BlackScholesPDE] in IV. unfold option_payoff1 in IV. rewrite PO in IV. injection IV as <-. apply max0_nonneg.
Qed.
Theorem C114_call : forall lu kind xDom J tDom N K o cf s w d fuel,
  vanilla64 kind xDom J tDom N Call K o cf s -> read (optTicker o) w = Ok d ->
  bs_nodes kind J cf (getSigma d) (getR w) (coupon64 d) ->
  (forall t, read_at kind (cDt cf) tDom t -> below (strike_value K (getR w) (optT o) t) (at64 (cX cf) (Z.to_nat J - 1))) ->
  match @solve b64 num lu cf w fuel s with
  | Some (Ok v, _) => length v = Z.to_nat J /\ forall j, (j < Z.to_nat J)%nat -> nonneg (at64 v j)
  | Some _ => False
  | None => True
  end.
Proof.
  intros lu kind xDom J tDom N K o cf s w d fuel (HJ & MX & PO & ip & mem & w0 & E) RD (US & SN) PK.
  apply (C114_nonnegative fexp flog lu kind xDom J tDom N _ o ip mem w0 cf s w _ fuel HJ MX E (bs_evaluates64 fexp flog o w d Call K RD PO) US).
  - intros u j _ JJ. apply nodes_any. now apply SN.
  - intros t RA. split; [|split].
    + intros x _. cbn [kf bs_data]. change (val (b64_ofZ 0) <= 0). rewrite zero_val. lra.
    + exact nonneg_0.
    + apply sub_ge. exact (PK t RA).
  - intros j v _ IV. cbn [initialCondition BlackScholesPDE] in IV. unfold option_payoff1 in IV. rewrite PO in IV. injection IV as <-. apply max0_nonneg.
Qed.

(** A put is worth more, a call less, at the higher strike. *)
Definition same_but_strike (o o' : Option b64) : Prop := optTicker o' = optTicker o /\ optT o' = optT o.
Theorem C115_put : forall lu kind xDom J tDom N K K' o o' cf cf' s s' w d fuel,
  vanilla64 kind xDom J tDom N Put K o cf s -> vanilla64 kind xDom J tDom N Put K' o' cf' s' -> same_but_strike o o' ->
  read (optTicker o) w = Ok d -> bs_nodes kind J cf (getSigma d) (getR w) (coupon64 d) -> below K K' ->
  match @solve b64 num lu cf w fuel s, @solve b64 num lu cf' w fuel s' with
  | Some (Ok v, _), Some (Ok v', _) => length v = Z.to_nat J /\ length v' = Z.to_nat J /\ forall j, (j < Z.to_nat J)%nat -> below (at64 v j) (at64 v' j)
  | None, None => True
  | _, _ => False
  end.
Proof.
  intros lu kind xDom J tDom N K K' o o' cf cf' s s' w d fuel (HJ & MX & PO & ip & mem & w0 & E) (_ & _ & PO' & ip' & mem' & w0' & E') (OT & OM) RD (US & SN) KK.
  assert (RD' : read (optTicker o') w = Ok d) by (rewrite OT; exact RD).
  apply (C115_comparison fexp flog lu kind xDom J tDom N _ _ o o' ip ip' mem mem' w0 w0' cf cf' s s' w w _ _ fuel HJ MX
    E (bs_evaluates64 fexp flog o w d Put K RD PO) E' (bs_evaluates64 fexp flog o' w d Put K' RD' PO') US).
  - intros u j _ JJ. apply nodes_any. now apply SN.
  - intros t x. repeat split.
  - intros t _. split; [intros x; apply below_refl|]. split; [exact KK|apply below_refl].
  - intros j v v' _ IV IV'. cbn [initialCondition BlackScholesPDE] in IV, IV'. unfold option_payoff1 in IV, IV'. rewrite PO in IV. rewrite PO' in IV'.
    injection IV as <-. injection IV' as <-. apply max0_below. apply sub_below; [exact KK|apply below_refl].
Qed.
Theorem C115_call : forall lu kind xDom J tDom N K K' o o' cf cf' s s' w d fuel,
  (forall x, nonneg (fexp x)) ->
  vanilla64 kind xDom J tDom N Call K o cf s -> vanilla64 kind xDom J tDom N Call K' o' cf' s' -> same_but_strike o o' ->
  read (optTicker o) w = Ok d -> bs_nodes kind J cf (getSigma d) (getR w) (coupon64 d) -> below K K' ->
  match @solve b64 num lu cf w fuel s, @solve b64 num lu cf' w fuel s' with
  | Some (Ok v, _), Some (Ok v', _) => length v = Z.to_nat J /\ length v' = Z.to_nat J /\ forall j, (j < Z.to_nat J)%nat -> below (at64 v' j) (at64 v j)
  | None, None => True
  | _, _ => False
  end.
Proof.
  intros lu kind xDom J tDom N K K' o o' cf cf' s s' w d fuel EP (HJ & MX & PO & ip & mem & w0 & E) (_ & _ & PO' & ip' & mem' & w0' & E') (OT & OM) RD (US & SN) KK.
  assert (RD' : read (optTicker o') w = Ok d) by (rewrite OT; exact RD).
  destruct (ctor_grid64 _ _ _ _ _ _ _ _ _ _ _ _ _ _ HJ E) as (_ & _ & _ & _ & _ & _ & _ & D1 & D2 & D3 & D4 & _).
  destruct (ctor_grid64 _ _ _ _ _ _ _ _ _ _ _ _ _ _ HJ E') as (_ & _ & _ & _ & _ & _ & _ & D1' & D2' & D3' & D4' & _).
  assert (Q1 : cDt cf' = cDt cf) by congruence. assert (Q2 : cDx cf' = cDx cf) by congruence. assert (Q3 : cDx2 cf' = cDx2 cf) by congruence.
  assert (Q4 : cX cf' = cX cf) by (rewrite D4, D4', Q2; reflexivity).
  assert (US' : usable cf') by (unfold usable; rewrite Q1, Q3; exact US).
  pose proof (C115_comparison fexp flog lu kind xDom J tDom N _ _ o' o ip' ip mem' mem w0' w0 cf' cf s' s w w _ _ fuel HJ MX
    E' (bs_evaluates64 fexp flog o' w d Call K' RD' PO') E (bs_evaluates64 fexp flog o w d Call K RD PO) US') as C. cbn zeta in C.
  match type of C with ?A -> ?B -> ?C' -> ?D -> _ => assert (CC : A /\ B /\ C' /\ D) end.
  { split; [|split; [|split]].
    - intros u j _ JJ. apply nodes_any. rewrite Q1, Q2, Q3, Q4. now apply SN.
    - intros t x. repeat split.
    - intros t _. split; [intros x; apply below_refl|]. split; [apply below_refl|]. cbn [kg bs_data PayoffType_eqb]. rewrite OM.
      apply sub_below; [apply below_refl|]. apply mul_below; [apply EP|exact KK].
    - intros j v v' _ IV IV'. cbn [initialCondition BlackScholesPDE] in IV, IV'. unfold option_payoff1 in IV, IV'. rewrite PO' in IV. rewrite PO in IV'.
      injection IV as <-. injection IV' as <-. apply max0_below. apply sub_below; [apply below_refl|exact KK]. }
  destruct CC as (C1 & C2 & C3 & C4). specialize (C C1 C2 C3 C4).
  destruct (@solve b64 num lu cf' w fuel s') as [[[v'|e'|] s1']|], (@solve b64 num lu cf w fuel s) as [[[v|e|] s1]|]; try easy.
Qed.
End Vanilla.
Print Assumptions C114_put.
Print Assumptions C114_call.
Print Assumptions C115_put.
Print Assumptions C115_call.

(** ** Examples *)
(** Deciding the conditions of a node. *)
Definition dominantb (a b g : b64) : bool :=
  is_finite a && is_finite b && is_finite g && b64_leb (b64_ofZ 0) a && b64_leb (b64_ofZ 0) g &&
  b64_ltb (b64_add b a) (b64_ofZ 0) && b64_leb g (b64_opp (b64_add b a)).
Lemma dominantb_ok : forall a b g, dominantb a b g = true -> dominant_row a b g.
Proof.
  intros a b g H. unfold dominantb in H. repeat rewrite andb_true_iff in H. destruct H as ((((((FA & FB) & FG) & LA) & LG) & LB) & LO).
  apply leb_true_iff in LA as (_ & _ & LA). apply leb_true_iff in LG as (_ & _ & LG). apply ltb_true_iff in LB as (NB & _ & LB).
  rewrite zero_val in *. repeat split; auto. apply leb_true_iff in LO as (_ & NO & LO).
  assert (V : val (b64_opp (b64_add b a)) = - val (b64_add b a)); [|lra].
  cases (b64_add b a) NB; [now apply val_opp| |]; cbn; lra.
Qed.
Definition fnpb (x : b64) : bool := is_finite x && b64_leb x (b64_ofZ 0).
Lemma fnpb_ok : forall x, fnpb x = true -> finite_nonpos x.
Proof. intros x H. apply andb_true_iff in H as [F L]. apply leb_true_iff in L as (_ & _ & L). rewrite zero_val in L. now split. Qed.
Lemma nonneg_ok : forall x, b64_leb (b64_ofZ 0) x = true -> nonneg x.
Proof. intros x H _. apply leb_true_iff in H as (_ & _ & H). now rewrite zero_val in H. Qed.

Definition one (_ : b64) : b64 := b64_ofZ 1.
Notation num1 := (B64 one one).
Definition soundb (kind : SchemeKind) (dt dx dx2 d c r : b64) : bool :=
  let half := @nhalf b64 num1 in
  let l := @lower b64 num1 dt dx d c in
  let g := @upper b64 num1 dt dx d c in
  match kind with
  | KExplicit => b64_leb (b64_ofZ 0) l && b64_leb (b64_ofZ 0) g && b64_leb (b64_ofZ 0) (@middle b64 num1 dx2 dt dx2 d r)
  | KImplicit => dominantb l (@middle b64 num1 (b64_opp dx2) dt dx2 d r) g
  | KCrankNicolson =>
      dominantb (b64_mul half l) (b64_add (b64_sub (b64_opp dx2) (b64_mul dt d)) (b64_mul (b64_mul (b64_mul half dt) dx2) r)) (b64_mul half g) &&
      fnpb (b64_mul (b64_opp half) l) && fnpb (b64_mul (b64_opp half) g) &&
      fnpb (b64_sub (b64_add (b64_opp dx2) (b64_mul dt d)) (b64_mul (b64_mul (b64_mul half dt) dx2) r))
  end.
Lemma soundb_ok : forall kind dt dx dx2 sigma r c u x,
  soundb kind dt dx dx2 (kd (@bs_data b64 num1 sigma r c true (b64_ofZ 0) (b64_ofZ 0)) u x) (kc (@bs_data b64 num1 sigma r c true (b64_ofZ 0) (b64_ofZ 0)) u x) (b64_opp r) = true ->
  sound_node one one kind dt dx dx2 (@bs_data b64 num1 sigma r c true (b64_ofZ 0) (b64_ofZ 0)) u x.
Proof.
  intros kind dt dx dx2 sigma r c u x. unfold soundb, sound_node. cbn [kd kc kr bs_data].
  set (d := (nhalf * sigma * sigma * x * x)%num). set (cc := ((r - c) * x)%num).
  destruct kind; intros H.
  - apply andb_true_iff in H as [H H3]. apply andb_true_iff in H as [H1 H2]. split; [now apply nonneg_ok|]. split; now apply nonneg_ok.
  - now apply dominantb_ok.
  - apply andb_true_iff in H as [H H4]. apply andb_true_iff in H as [H H3]. apply andb_true_iff in H as [H1 H2].
    split; [now apply dominantb_ok|]. split; [now apply fnpb_ok|]. split; now apply fnpb_ok.
Qed.
Definition nodesb (kind : SchemeKind) (J : Z) (cf : Conf b64) (sigma r c : b64) : bool :=
  is_finite (cDt cf) && b64_leb (b64_ofZ 0) (cDt cf) && is_finite (cDx2 cf) && b64_ltb (b64_ofZ 0) (cDx2 cf) &&
  forallb (fun j => let x := at64 (cX cf) j in
    soundb kind (cDt cf) (cDx cf) (cDx2 cf) (@kd b64 (@bs_data b64 num1 sigma r c true (b64_ofZ 0) (b64_ofZ 0)) (b64_ofZ 0) x)
      (@kc b64 (@bs_data b64 num1 sigma r c true (b64_ofZ 0) (b64_ofZ 0)) (b64_ofZ 0) x) (b64_opp r)) (seq 1 (Z.to_nat J - 2)).
Lemma nodesb_ok : forall kind J cf sigma r c, nodesb kind J cf sigma r c = true -> bs_nodes one one kind J cf sigma r c.
Proof.
  intros kind J cf sigma r c H. unfold nodesb in H. repeat rewrite andb_true_iff in H. destruct H as ((((F1 & L1) & F2) & L2) & H).
  apply leb_true_iff in L1 as (_ & _ & L1). apply ltb_true_iff in L2 as (_ & _ & L2). rewrite zero_val in *.
  split; [repeat split; auto|]. intros j JJ. rewrite forallb_forall in H. apply soundb_ok. apply H. apply in_seq. lia.
Qed.

(** A stock at 4 with volatility 1/2 and rate 1/20; nodes 0, 2, 4, 6, 8; ten steps. *)
Definition w64 : Market b64 :=
  mkMarket (b64_div (b64_ofZ 1) (b64_ofZ 20)) [("A"%string, 0%nat)] [] [mkStock (b64_ofZ 4) (b64_div (b64_ofZ 1) (b64_ofZ 2)) None] [].
Definition o64 (ty : PayoffType) (K : Z) : Option b64 := mkOption European "A" (b64_ofZ 1) (PVanilla ty (b64_ofZ K)) None 0.
Notation made kind ty K := (@Fdm_ctor b64 num1 kind (b64_ofZ 8) 5 (b64_ofZ 1) 11 (@BlackScholesPDE b64 num1 (o64 ty K)) (o64 ty K) None (Some ThomasAlgorithm) (fun _ => b64_ofZ 0) w64).
Definition ran64 (lu : LuAlg b64) (kind : SchemeKind) (ty : PayoffType) (K : Z) : outcome (Conf b64 * Fdm b64 * list b64) :=
  match made kind ty K with
  | Ok (cf, s) => match @solve b64 num1 lu cf w64 20 s with Some (Ok v, _) => Ok (cf, s, v) | _ => UB end
  | _ => UB
  end.
Definition half64 : b64 := b64_div (b64_ofZ 1) (b64_ofZ 2).
Definition rate64 : b64 := b64_div (b64_ofZ 1) (b64_ofZ 20).
(** The conditions hold, and the values at the stock price are positive and strictly ordered. *)
Definition okb (kind : SchemeKind) (K : Z) (cf : Conf b64) (v : list b64) : bool :=
  nodesb kind 5 cf half64 rate64 (b64_ofZ 0) && b64_ltb (b64_ofZ 0) (at64 v 2) && b64_leb (b64_mul (b64_ofZ K) (b64_ofZ 1)) (at64 (cX cf) 4).
Definition checked (kind : SchemeKind) (ty : PayoffType) (x y : outcome (Conf b64 * Fdm b64 * list b64)) : bool :=
  match x, y with
  | Ok (cf, s, v), Ok (cf', s', v') =>
      okb kind 3 cf v && okb kind 4 cf' v' && match ty with Call => b64_ltb (at64 v' 2) (at64 v 2) | _ => b64_ltb (at64 v 2) (at64 v' 2) end
  | _, _ => false
  end.
Lemma ex114_one : forall lu kind ty K cf s v s1, ty = Call \/ ty = Put -> nonneg (b64_ofZ K) -> made kind ty K = Ok (cf, s) ->
  @solve b64 num1 lu cf w64 20 s = Some (Ok v, s1) -> okb kind K cf v = true ->
  vanilla64 one one kind (b64_ofZ 8) 5 (b64_ofZ 1) 11 ty (b64_ofZ K) (o64 ty K) cf s /\ bs_nodes one one kind 5 cf half64 rate64 (b64_ofZ 0) /\
  notnan (at64 v 2) /\ 0 < val (at64 v 2) /\ forall j, (j < 5)%nat -> nonneg (at64 v j).
Proof.
  intros lu kind ty K cf s v s1 TY PK E SO C. unfold okb in C. apply andb_true_iff in C as [C C3]. apply andb_true_iff in C as [C1 C2].
  apply nodesb_ok in C1. apply ltb_true_iff in C2 as (_ & N2 & C2). rewrite zero_val in C2. apply leb_true_iff in C3 as (N3 & N4 & C3).
  assert (V : vanilla64 one one kind (b64_ofZ 8) 5 (b64_ofZ 1) 11 ty (b64_ofZ K) (o64 ty K) cf s).
  { split; [unfold ULONG_MOD; lia|]. split; [unfold INT_MAX; lia|]. split; [reflexivity|]. eauto. }
  split; [exact V|]. split; [exact C1|]. split; [exact N2|]. split; [exact C2|].
  destruct TY as [-> | ->].
  - pose proof (C114_call one one lu _ _ _ _ _ _ _ _ _ w64 (mkStock (b64_ofZ 4) half64 None) 20 V eq_refl C1) as P. rewrite SO in P. apply P.
    intros t _ _ _. exact C3.
  - pose proof (C114_put one one lu _ _ _ _ _ _ _ _ _ w64 (mkStock (b64_ofZ 4) half64 None) 20 V eq_refl C1 PK) as P. rewrite SO in P. apply P.
Qed.
Example C114_ex : forall lu kind ty, ty = Call \/ ty = Put ->
  exists cf s v s1 cf' s' v' s1',
    vanilla64 one one kind (b64_ofZ 8) 5 (b64_ofZ 1) 11 ty (b64_ofZ 3) (o64 ty 3) cf s /\
    vanilla64 one one kind (b64_ofZ 8) 5 (b64_ofZ 1) 11 ty (b64_ofZ 4) (o64 ty 4) cf' s' /\
    bs_nodes one one kind 5 cf half64 rate64 (b64_ofZ 0) /\
    @solve b64 num1 lu cf w64 20 s = Some (Ok v, s1) /\ @solve b64 num1 lu cf' w64 20 s' = Some (Ok v', s1') /\
    notnan (at64 v 2) /\ notnan (at64 v' 2) /\ 0 < val (at64 v 2) /\
    match ty with Call => val (at64 v' 2) < val (at64 v 2) | _ => val (at64 v 2) < val (at64 v' 2) end /\
    forall j, (j < 5)%nat -> nonneg (at64 v j) /\ nonneg (at64 v' j) /\ match ty with Call => below (at64 v' j) (at64 v j) | _ => below (at64 v j) (at64 v' j) end.
Proof.
  intros lu kind ty TY.
  assert (C : checked kind ty (ran64 lu kind ty 3) (ran64 lu kind ty 4) = true) by (destruct kind, TY as [-> | ->]; vm_compute; reflexivity).
  unfold ran64 in C.
  destruct (made kind ty 3) as [[cf s]| |] eqn:E; try discriminate. destruct (@solve b64 num1 lu cf w64 20 s) as [[[v|e|] s1]|] eqn:S1; try discriminate.
  destruct (made kind ty 4) as [[cf' s']| |] eqn:E'; try discriminate. destruct (@solve b64 num1 lu cf' w64 20 s') as [[[v'|e'|] s1']|] eqn:S1'; try discriminate.
  cbn [checked] in C. apply andb_true_iff in C as [C C3]. apply andb_true_iff in C as [C1 C2].
  destruct (ex114_one lu kind ty 3 cf s v s1 TY ltac:(apply nonneg_ok; vm_compute; reflexivity) E S1 C1) as (V & BN & NN & PV & NV).
  destruct (ex114_one lu kind ty 4 cf' s' v' s1' TY ltac:(apply nonneg_ok; vm_compute; reflexivity) E' S1' C2) as (V' & _ & NN' & _ & NV').
  exists cf, s, v, s1, cf', s', v', s1'. split; [exact V|]. split; [exact V'|]. split; [exact BN|]. split; [exact S1|]. split; [exact S1'|].
  split; [exact NN|]. split; [exact NN'|]. split; [exact PV|].
  assert (KK : below (b64_ofZ 3) (b64_ofZ 4)) by (intros N N'; now apply leb_le).
  destruct TY as [-> | ->].
  - split; [now apply ltb_true_iff in C3|]. intros j JJ. split; [now apply NV|]. split; [now apply NV'|].
    pose proof (C115_call one one lu _ _ _ _ _ _ _ _ _ _ _ _ _ w64 (mkStock (b64_ofZ 4) half64 None) 20 ltac:(intros x; apply nonneg_ok; vm_compute; reflexivity)
      V V' (conj eq_refl eq_refl) eq_refl BN KK) as P. rewrite S1, S1' in P. now apply P.
  - split; [now apply ltb_true_iff in C3|]. intros j JJ. split; [now apply NV|]. split; [now apply NV'|].
    pose proof (C115_put one one lu _ _ _ _ _ _ _ _ _ _ _ _ _ w64 (mkStock (b64_ofZ 4) half64 None) 20
      V V' (conj eq_refl eq_refl) eq_refl BN KK) as P. rewrite S1, S1' in P. now apply P.
Qed.

(** Distance 2, step 1, diffusion 1, convection 1, reaction -1/4. *)
Example C114_nodes_ex : forall kind u,
  let k := mkCoefs (fun _ _ => b64_ofZ 1) (fun _ _ => b64_ofZ 1) (fun _ _ => b64_opp (b64_div (b64_ofZ 1) (b64_ofZ 4)))
    (fun _ _ => b64_ofZ 0) (fun _ _ => b64_ofZ 0) (fun _ _ => b64_ofZ 0) in
  sound_node one one kind (b64_ofZ 1) (b64_ofZ 2) (b64_ofZ 4) k u u.
Proof.
  intros kind u k.
  assert (V1 : val (b64_mul (b64_ofZ 1) (b64_ofZ 1)) = 1) by (vm_compute; lra).
  assert (V2 : val (b64_mul (b64_mul (b64_mul (@nhalf b64 num1) (b64_ofZ 1)) (b64_ofZ 2)) (b64_ofZ 1)) = 1) by (vm_compute; lra).
  assert (V3 : val (b64_mul (b64_mul (b64_mul (@nhalf b64 num1) (b64_ofZ 1)) (b64_ofZ 4)) (b64_opp (b64_div (b64_ofZ 1) (b64_ofZ 4)))) = - / 2) by (vm_compute; lra).
  assert (V4 : val (b64_mul (b64_mul (b64_ofZ 1) (b64_ofZ 4)) (b64_opp (b64_div (b64_ofZ 1) (b64_ofZ 4)))) = - 1) by (vm_compute; lra).
  assert (VD : val (b64_ofZ 4) = 4) by (vm_compute; lra).
  assert (L0 := bpow_le radix2 (-900) 0 ltac:(lia)). assert (L1 := bpow_le radix2 2 900 ltac:(lia)). assert (L2 := bpow_le radix2 0 50 ltac:(lia)).
  assert (L3 := bpow_le radix2 0 1000 ltac:(lia)).
  change (bpow radix2 0) with 1 in *. change (bpow radix2 2) with 4 in *.
  assert (OD : ordinary (b64_ofZ 4)) by (split; [reflexivity|rewrite VD; lra]).
  assert (QQ : forall v, quiet kind (b64_ofZ 4) (b64_mul (b64_ofZ 1) (kd k v u)) (b64_mul (b64_mul (b64_mul (@nhalf b64 num1) (b64_ofZ 1)) (b64_ofZ 2)) (kc k v u))
    (match kind with KCrankNicolson => b64_mul (b64_mul (b64_mul (@nhalf b64 num1) (b64_ofZ 1)) (b64_ofZ 4)) (kr k v u) | _ => b64_mul (b64_mul (b64_ofZ 1) (b64_ofZ 4)) (kr k v u) end)).
  { intros v. unfold quiet. cbn [kd kc kr k]. rewrite V1, V2, VD.
    destruct kind; rewrite ?V3, ?V4, Rabs_pos_eq by lra; repeat split; first [reflexivity|lra]. }
  exact (C114_nodes one one kind _ _ _ k u u OD (QQ u) (QQ _)).
Qed.
