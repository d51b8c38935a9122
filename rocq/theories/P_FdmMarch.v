(** Properties C66, C67, C73-C75: the grid, the time loop and the calls on a
    finite-difference solver. *)
From Coq Require Import String List ZArith Bool Lia Reals Lra.
From Flocq Require Import Core BinarySingleNaN.
From Verif Require Import M_Num M_Outcome M_Dict M_Stock M_Market M_Payoff M_Option M_Numeric M_Fdm.
From Verif Require Import S_Double S_Market S_Numeric S_Fdm L_B64 L_Dict L_Numeric L_Fdm P_Interpolation.
Import ListNotations.
Local Open Scope R_scope.

(** ** The constructor *)
Lemma initial_ok : forall T (num : Num T) (p : Pde T) w dx n j vs xs,
  initial p w dx n j = Ok (vs, xs) ->
  length vs = n /\ xs = map (fun i => nmul (nofZ (j + Z.of_nat i)) dx) (seq 0 n) /\
  forall i, (i < n)%nat -> initialCondition p w (nth i xs n0) = Ok (nth i vs n0).
Proof.
  intros T num p w dx. induction n as [|n IH]; intros j vs xs E; cbn [initial] in E.
  - injection E as <- <-. repeat split; auto. intros i I. lia.
  - destruct (initialCondition p w _) as [v| |] eqn:V; try discriminate. cbn [bind] in E.
    destruct (initial p w dx n (j + 1)) as [[vs' xs']| |] eqn:I; try discriminate. cbn [bind] in E.
    injection E as <- <-. destruct (IH _ _ _ I) as (L & X & C). split; [cbn; lia|]. split.
    + cbn [seq map]. rewrite Z.add_0_r. f_equal. rewrite X, <- seq_shift, map_map. apply map_ext.
      intros i. do 2 f_equal. lia.
    + intros [|i] H; [exact V|]. cbn [nth]. apply C. lia.
Qed.

(** What a constructor leaves behind. *)
Lemma ctor_ok : forall T (num : Num T) k xDom J tDom N p o ip sv mem w (cf : Conf T) s,
  (0 <= J)%Z ->
  Fdm_ctor k xDom J tDom N p o ip sv mem w = Ok (cf, s) ->
  let n := Z.to_nat J in
  cScheme cf = scheme_of k sv /\ cXDom cf = xDom /\ cJ cf = J /\ cTDom cf = tDom /\ cN cf = N /\
  cPde cf = p /\ cOption cf = o /\
  cInterp cf = match ip with Some i => i | None => LinearInterpolation end /\
  cDx cf = ndiv xDom (nofZ (ulsub J 1)) /\ cDx2 cf = nmul (cDx cf) (cDx cf) /\ cDt cf = ndiv tDom (nofZ (ulsub N 1)) /\
  cX cf = map (fun i => nmul (nofZ (Z.of_nat i)) (cDx cf)) (seq 0 n) /\
  length (fOld s) = n /\ (forall i, (i < n)%nat -> initialCondition p w (nth i (cX cf) n0) = Ok (nth i (fOld s) n0)) /\
  fNew s = repeat n0 n /\ fTPrev s = n0 /\ fTCurr s = n0 /\ fSolved s = false /\
  (k <> KExplicit -> (2 <= J)%Z /\ length (fB s) = (n - 2)%nat).
Proof.
  intros T num k xDom J tDom N p o ip sv mem w cf s HJ E n. unfold Fdm_ctor in E.
  destruct (initial _ _ _ _ _) as [[vs xs]| |] eqn:I; try discriminate. cbn [bind] in E.
  apply initial_ok in I as (L & X & C).
  assert (G : exists b, (cf, s) =
    (mkConf (scheme_of k sv) xDom J (ndiv xDom (nofZ (ulsub J 1)))
       (nmul (ndiv xDom (nofZ (ulsub J 1))) (ndiv xDom (nofZ (ulsub J 1)))) xs tDom N (ndiv tDom (nofZ (ulsub N 1)))
       p o (match ip with Some i => i | None => LinearInterpolation end),
     mkFdm vs (repeat n0 (Z.to_nat J)) n0 n0 false b) /\ (k <> KExplicit -> (2 <= J)%Z /\ length b = (n - 2)%nat)).
  { destruct k; [injection E as <- <-; eexists; split; [reflexivity|congruence]| |];
      destruct (Z.ltb_spec J 2); try discriminate; injection E as <- <-; eexists; (split; [reflexivity|]);
      (intros _; split; [easy|]; rewrite map_length, seq_length; unfold n; lia). }
  destruct G as (b & G & B). injection G as -> ->.
  cbn [cScheme cXDom cJ cDx cDx2 cX cTDom cN cDt cPde cOption cInterp fOld fNew fTPrev fTCurr fSolved fB].
  repeat split; auto; apply B.
  all: auto.
Qed.

(** ** C66 *)
Theorem C66_grid : forall k xDom J tDom N p o ip sv mem w (cf : Conf R) s,
  (2 <= J < ULONG_MOD)%Z -> 0 < xDom ->
  Fdm_ctor k xDom J tDom N p o ip sv mem w = Ok (cf, s) ->
  let n := Z.to_nat J in
  length (cX cf) = n /\ el (cX cf) 0 = 0 /\ el (cX cf) (n - 1) = xDom /\ increasing ident (cX cf) /\
  (forall i, (i + 1 < n)%nat -> el (cX cf) (i + 1) - el (cX cf) i = xDom / (IZR J - 1)) /\
  (length (fOld s) = n /\ forall i, (i < n)%nat -> initialCondition p w (el (cX cf) i) = Ok (el (fOld s) i)).
Proof.
  intros k xDom J tDom N p o ip sv mem w cf s HJ HX E n.
  assert (J0 : (0 <= J)%Z) by lia.
  destruct (ctor_ok _ _ _ _ _ _ _ _ _ _ _ _ _ _ _ J0 E) as (_ & _ & _ & _ & _ & _ & _ & _ & DX & _ & _ & X & LO & IC & _).
  fold n in X, LO, IC. cbn [ndiv nmul nofZ Rnum] in DX, X. rewrite ulsub_small in DX by lia. rewrite minus_IZR in DX.
  assert (P : 0 < IZR J - 1) by (assert (2 <= IZR J) by (apply IZR_le; lia); lra).
  assert (EL : forall i, (i < n)%nat -> el (cX cf) i = INR i * cDx cf).
  { intros i I. rewrite X. change (el (map (fun i => IZR (Z.of_nat i) * cDx cf) (seq 0 n)) i)
      with (at_ (map (fun i => IZR (Z.of_nat i) * cDx cf) (seq 0 n)) i). rewrite at_map_seq by easy. now rewrite INR_IZR_INZ. }
  assert (LX : length (cX cf) = n) by (rewrite X, map_length, seq_length; easy).
  assert (DP : 0 < cDx cf) by (rewrite DX; apply Rdiv_lt_0_compat; lra).
  assert (HN : INR (n - 1) = IZR J - 1).
  { rewrite INR_IZR_INZ. replace (Z.of_nat (n - 1)) with (J - 1)%Z by lia. apply minus_IZR. }
  split; [easy|]. split; [rewrite EL by lia; cbn; lra|]. split.
  { rewrite EL by lia. rewrite HN, DX. field. lra. }
  split.
  { intros i j x y L A B. assert (HI := nth_lt _ _ _ _ A). assert (HJ' := nth_lt _ _ _ _ B).
    apply (nth_error_nth _ _ 0) in A. apply (nth_error_nth _ _ 0) in B. unfold ident. rewrite <- A, <- B.
    change (el (cX cf) i < el (cX cf) j). rewrite !EL by lia. apply Rmult_lt_compat_r; [easy|]. now apply lt_INR. }
  split; [|easy]. intros i I. rewrite !EL by lia. rewrite plus_INR, DX. cbn [INR]. field. lra.
Qed.
Print Assumptions C66_grid.

Lemma ctor_total : forall T (num : Num T) k xDom J tDom N p o ip sv mem (w : Market T),
  (forall x, exists v, initialCondition p w x = Ok v) -> (2 <= J)%Z ->
  exists cf s, Fdm_ctor k xDom J tDom N p o ip sv mem w = Ok (cf, s).
Proof.
  intros T num k xDom J tDom N p o ip sv mem w C HJ. unfold Fdm_ctor.
  assert (I : forall dx n j, exists vs xs, initial p w dx n j = Ok (vs, xs)).
  { intros dx. induction n as [|n IH]; intros j; cbn [initial]; [eauto|].
    destruct (C (nmul (nofZ j) dx)) as (v & ->). cbn [bind]. destruct (IH (j + 1)%Z) as (vs & xs & ->). cbn [bind]. eauto. }
  destruct (I (ndiv xDom (nofZ (ulsub J 1))) (Z.to_nat J) 0%Z) as (vs & xs & ->). cbn [bind].
  destruct k; [eauto| |]; (destruct (Z.ltb_spec J 2); [lia|eauto]).
Qed.


(** ** What the member functions leave alone *)
Section Keeps.
Context {T : Type} {num : Num T}.
Variable lu : LuAlg T.
Variable cf : Conf T.
Variable w : Market T.

Definition same (s s' : Fdm T) : Prop :=
  fOld s' = fOld s /\ fTPrev s' = fTPrev s /\ fTCurr s' = fTCurr s /\ fSolved s' = fSolved s /\
  length (fNew s') = length (fNew s) /\ length (fB s') = length (fB s).
Definition keeps {A} (m : FM A) : Prop := forall s, same s (snd (m s)).

Lemma same_refl : forall s, same s s.
Proof. intros s. repeat split. Qed.
Lemma same_trans : forall a b c, same a b -> same b c -> same a c.
Proof. unfold same. intros a b c (?&?&?&?&?&?) (?&?&?&?&?&?). repeat split; congruence. Qed.

Lemma keeps_bind : forall A B (m : FM A) (f : A -> FM B), keeps m -> (forall a, keeps (f a)) -> keeps (fbind m f).
Proof.
  intros A B m f M F s. unfold fbind. specialize (M s). destruct (m s) as [[a|e|] s']; cbn [snd] in *; auto.
  eapply same_trans; [exact M|apply F].
Qed.
Lemma keeps_lift : forall A (o : outcome A), keeps (flift o).
Proof. intros A o s. apply same_refl. Qed.
Lemma keeps_get : keeps fget.
Proof. intros s. apply same_refl. Qed.
Lemma keeps_ret : forall A (a : A), keeps (fret a).
Proof. intros A a s. apply same_refl. Qed.
Lemma keeps_writeNew : forall j x, keeps (writeNew j x).
Proof.
  intros j x s. unfold writeNew, fbind, fget, flift, vput. destruct (vget (fNew s) j); cbn; try apply same_refl.
  unfold same. cbn. rewrite lset_length. repeat split.
Qed.
Lemma keeps_writeB : forall j x, keeps (writeB j x).
Proof.
  intros j x s. unfold writeB, fbind, fget, flift, vput. destruct (vget (fB s) j); cbn; try apply same_refl.
  unfold same. cbn. rewrite lset_length. repeat split.
Qed.
Lemma keeps_floop : forall body, (forall i, keeps (body i)) -> forall n i, keeps (floop n i body).
Proof.
  intros body B. induction n as [|n IH]; intros i; cbn [floop]; [apply keeps_ret|]. apply keeps_bind; auto.
Qed.
Ltac kp := repeat first [apply keeps_writeNew | apply keeps_writeB | apply keeps_lift | apply keeps_get
                        | apply keeps_bind; [|intros ?]].
Lemma keeps_copy : forall sol J, keeps (for_inner J (copy_body sol)).
Proof. intros sol J. apply keeps_floop. intros i. unfold copy_body. kp. Qed.
Lemma keeps_boundary : keeps (calculateBoundaryConditions cf w).
Proof. unfold calculateBoundaryConditions. kp. Qed.
Lemma keeps_inner : keeps (calculateInnerDomain lu cf w).
Proof.
  unfold calculateInnerDomain. destruct (cScheme cf) as [|sv|sv].
  - apply keeps_floop. intros i. unfold explicit_body. kp.
  - unfold implicit_inner. apply keeps_bind; [apply keeps_get|intros ?]. apply keeps_bind; [apply keeps_lift|intros ?].
    apply keeps_bind; [apply keeps_lift|intros ?]. apply keeps_copy.
  - generalize (Z.to_nat (ulsub (cJ cf) 1 - 1)). intros n. generalize (@nil (Z * Z * T)). generalize 1%Z.
    induction n as [|n IH]; intros j acc; cbn [cn_loop]; [apply keeps_ret|].
    repeat (apply keeps_bind; [first [apply keeps_writeB | apply keeps_lift | apply keeps_get | apply keeps_copy]|intros ?]).
    apply IH.
Qed.

(** A time step moves the clock by dt; when it fails, tPrev and oldPrices stay. *)
Lemma step_clock : forall s, let '(o, s') := time_step lu cf w s in
  fTCurr s' = nadd (fTPrev s) (cDt cf) /\ fSolved s' = fSolved s /\
  length (fNew s') = length (fNew s) /\ length (fB s') = length (fB s) /\
  match o with
  | Ok _ => fTPrev s' = nadd (fTPrev s) (cDt cf) /\ fOld s' = fNew s'
  | _ => fTPrev s' = fTPrev s /\ fOld s' = fOld s
  end.
Proof.
  intros s. unfold time_step, fbind at 1, fget at 1, fbind at 1, setTCurr, fbind at 1.
  set (s0 := mkFdm _ _ _ _ _ _). pose proof (keeps_boundary s0) as KB.
  destruct (calculateBoundaryConditions cf w s0) as [ob s1]. cbn [snd] in KB.
  assert (K0 : same s0 s1) by exact KB.
  destruct ob as [[]|e|]; [|destruct K0 as (?&?&?&?&?&?); cbn in *; now repeat split|destruct K0 as (?&?&?&?&?&?); cbn in *; now repeat split].
  unfold fbind at 1. pose proof (keeps_inner s1) as KI. destruct (calculateInnerDomain lu cf w s1) as [oi s2]. cbn [snd] in KI.
  assert (K2 : same s0 s2) by (eapply same_trans; eauto). destruct K2 as (O & P & C & F & L & LB). cbn in O, P, C, F, L, LB.
  destruct oi as [[]|e|]; cbn; repeat split; auto; congruence.
Qed.

Lemma step_ok_clock : forall s s', time_step lu cf w s = (Ok tt, s') ->
  fTPrev s' = nadd (fTPrev s) (cDt cf) /\ fTCurr s' = nadd (fTPrev s) (cDt cf) /\ fSolved s' = fSolved s /\
  length (fNew s') = length (fNew s) /\ fOld s' = fNew s' /\ length (fB s') = length (fB s).
Proof. intros s s' E. pose proof (step_clock s) as H. rewrite E in H. tauto. Qed.

(** The clock after n steps. *)
Fixpoint clock (n : nat) (t : T) : T :=
  match n with O => t | Datatypes.S n' => clock n' (nadd t (cDt cf)) end.

Lemma steps_clock : forall n s s', steps lu cf w n s s' ->
  fTPrev s' = clock n (fTPrev s) /\ ((0 < n)%nat -> fTCurr s' = fTPrev s') /\ fSolved s' = fSolved s /\
  length (fNew s') = length (fNew s) /\ length (fB s') = length (fB s).
Proof.
  induction n as [|n IH]; intros s s' E; inversion E; subst.
  - repeat split; auto. lia.
  - apply step_ok_clock in H0 as (P & C & F & L & _ & LB). destruct (IH _ _ H1) as (P' & C' & F' & L' & LB').
    cbn [clock]. rewrite P in P'. repeat split; try congruence.
    intros _. destruct n as [|n]; [|apply C'; lia]. inversion H1; subst. congruence.
Qed.

(** The loop ends after the first number of steps that takes the clock to tDom. *)
Lemma march_steps : forall m fuel s, fTCurr s = fTPrev s ->
  (forall i, (i < m)%nat -> nltb (clock i (fTPrev s)) (cTDom cf) = true) ->
  nltb (clock m (fTPrev s)) (cTDom cf) = false ->
  forall s', march lu cf w fuel s = Some (Ok tt, s') -> steps lu cf w m s s'.
Proof.
  induction m as [|m IH]; intros fuel s C T1 T0 s' E.
  - cbn [clock] in T0. destruct fuel; cbn [march] in E; rewrite C, T0 in E; injection E as <-; constructor.
  - assert (TT := T1 0%nat ltac:(lia)). cbn [clock] in TT. destruct fuel; cbn [march] in E; rewrite C, TT in E; [discriminate|].
    destruct (time_step lu cf w s) as [[[]|e|] s1] eqn:ST; try discriminate.
    econstructor; [exact ST|]. apply step_ok_clock in ST as (P & C' & _).
    eapply IH; [congruence| | |exact E].
    + intros i I. rewrite P. apply (T1 (Datatypes.S i)). lia.
    + rewrite P. exact T0.
Qed.
Lemma steps_march : forall m fuel s s', fTCurr s = fTPrev s ->
  (forall i, (i < m)%nat -> nltb (clock i (fTPrev s)) (cTDom cf) = true) ->
  nltb (clock m (fTPrev s)) (cTDom cf) = false ->
  steps lu cf w m s s' -> (m <= fuel)%nat -> march lu cf w fuel s = Some (Ok tt, s').
Proof.
  induction m as [|m IH]; intros fuel s s' C T1 T0 E F; inversion E; subst.
  - cbn [clock] in T0. destruct fuel; cbn [march]; rewrite C, T0; reflexivity.
  - assert (TT := T1 0%nat ltac:(lia)). cbn [clock] in TT. destruct fuel as [|fuel]; [lia|]. cbn [march]. rewrite C, TT.
    rewrite H0. apply step_ok_clock in H0 as (P & C' & _). apply IH; auto; try lia; try congruence.
    + intros i I. rewrite P. apply (T1 (Datatypes.S i)). lia.
    + rewrite P. exact T0.
Qed.

End Keeps.

Lemma solve_march : forall T (num : Num T) lu cf w fuel (s : Fdm T) v s',
  solve lu cf w fuel s = Some (Ok v, s') ->
  exists s1, march lu cf w fuel s = Some (Ok tt, s1) /\ v = fNew s1 /\ s' = finished s1.
Proof.
  intros T num lu cf w fuel s v s' E. unfold solve in E.
  destruct (march lu cf w fuel s) as [[[[]|e|] s1]|]; try discriminate.
  injection E as <- <-. exists s1. repeat split; reflexivity.
Qed.

(** ** C67 *)
Theorem C67_exact : forall lu k xDom J tDom N p o ip sv mem w0 (cf : Conf R) s,
  (2 <= N < ULONG_MOD)%Z -> 0 < tDom -> (0 <= J)%Z ->
  Fdm_ctor k xDom J tDom N p o ip sv mem w0 = Ok (cf, s) ->
  let m := Z.to_nat (N - 1) in
  (forall w fuel v s', solve lu cf w fuel s = Some (Ok v, s') ->
     exists s1, steps lu cf w m s s1 /\ fTCurr s1 = tDom /\ v = fNew s1 /\ s' = finished s1) /\
  (forall w s1 fuel, steps lu cf w m s s1 -> (m <= fuel)%nat -> solve lu cf w fuel s = Some (Ok (fNew s1), finished s1)) /\
  (forall w i s1, steps lu cf w i s s1 -> fTPrev s1 = INR i * (tDom / (IZR N - 1))).
Proof.
  intros lu k xDom J tDom N p o ip sv mem w0 cf s HN HT J0 E m.
  destruct (ctor_ok _ _ _ _ _ _ _ _ _ _ _ _ _ _ _ J0 E)
    as (_ & _ & _ & TD & _ & _ & _ & _ & _ & _ & DT & _ & _ & _ & _ & TP & TC & _).
  cbn [ndiv nofZ Rnum] in DT. rewrite ulsub_small in DT by lia. rewrite minus_IZR in DT.
  change (n0 : R) with 0 in TP, TC.
  assert (P : 0 < IZR N - 1) by (assert (2 <= IZR N) by (apply IZR_le; lia); lra).
  assert (CL : forall i t, clock cf i t = t + INR i * (tDom / (IZR N - 1))).
  { induction i as [|i IH]; intros t; cbn [clock]; [cbn; ring|]. rewrite IH, S_INR, DT. cbn [nadd Rnum]. ring. }
  assert (HM : INR m = IZR N - 1).
  { unfold m. rewrite INR_IZR_INZ, Z2Nat.id by lia. apply minus_IZR. }
  assert (LT : forall i, (i < m)%nat -> nltb (clock cf i (fTPrev s)) (cTDom cf) = true).
  { intros i I. rewrite CL, TP, TD. cbn [nltb Rnum]. apply Rlt_bool_true. apply lt_INR in I. rewrite HM in I.
    rewrite Rplus_0_l. apply Rmult_lt_reg_r with (IZR N - 1); [easy|]. unfold Rdiv.
    rewrite Rmult_assoc. rewrite (Rmult_assoc tDom), Rinv_l by lra. nra. }
  assert (GE : nltb (clock cf m (fTPrev s)) (cTDom cf) = false).
  { rewrite CL, TP, TD. cbn [nltb Rnum]. apply Rlt_bool_false. rewrite HM, Rplus_0_l. apply Req_le. field. lra. }
  assert (C0 : fTCurr s = fTPrev s) by congruence.
  split; [|split].
  - intros w fuel v s' SO. apply solve_march in SO as (s1 & M & V & F). exists s1.
    assert (ST := march_steps lu cf w m fuel s C0 LT GE s1 M). split; [easy|]. split; [|easy].
    apply steps_clock in ST as (CP & CC & _). rewrite CC by lia. rewrite CP, CL, TP, HM. field. lra.
  - intros w s1 fuel ST F. unfold solve. rewrite (steps_march lu cf w m fuel s s1); auto.
  - intros w i s1 ST. apply steps_clock in ST as (CP & _). rewrite CP, CL, TP. ring.
Qed.
Print Assumptions C67_exact.

(** Explicit solvers run: every step succeeds. *)
Lemma sized_step : forall T (num : Num T) lu cf w (s s' : Fdm T) n, sized cf s n -> time_step lu cf w s = (Ok tt, s') -> sized cf s' n.
Proof.
  intros T num lu cf w s s' n (J & M & LX & LO & LN) E. apply step_ok_clock in E as (_ & _ & _ & L & O & _).
  repeat split; auto; congruence.
Qed.
Lemma explicit_runs : forall T (num : Num T) lu cf w (k : Coefs T) n, evaluates (cPde cf) w k -> cScheme cf = EulerExplicit ->
  (2 <= n)%nat -> forall m s, sized cf s n -> exists s', steps lu cf w m s s'.
Proof.
  intros T num lu cf w k n EV SC H. induction m as [|m IH]; intros s SZ; [exists s; constructor|].
  pose proof (explicit_step lu cf w k n EV s SC SZ H) as E.
  destruct (IH _ (sized_step _ _ _ _ _ _ _ _ SZ E)) as (s' & S'). exists s'. econstructor; eauto.
Qed.
Lemma ctor_sized : forall T (num : Num T) k xDom J tDom N p o ip sv mem w (cf : Conf T) s,
  (0 <= J < ULONG_MOD)%Z -> Fdm_ctor k xDom J tDom N p o ip sv mem w = Ok (cf, s) -> sized cf s (Z.to_nat J).
Proof.
  intros T num k xDom J tDom N p o ip sv mem w cf s HJ E. assert (J0 : (0 <= J)%Z) by lia.
  destruct (ctor_ok _ _ _ _ _ _ _ _ _ _ _ _ _ _ _ J0 E)
    as (_ & _ & EJ & _ & _ & _ & _ & _ & _ & _ & _ & X & LO & _ & FN & _).
  unfold sized. rewrite EJ, Z2Nat.id by lia. rewrite X, FN, repeat_length, map_length, seq_length. repeat split; auto; lia.
Qed.

Lemma leb_le : forall a b, notnan a -> notnan b -> b64_leb a b = true -> val a <= val b.
Proof. intros a b A B H. rewrite leb_val in H by easy. revert H. now destruct (Rle_bool_spec (val a) (val b)). Qed.
Lemma ltb_lt : forall a b, notnan a -> notnan b -> b64_ltb a b = true -> val a < val b.
Proof. intros a b A B H. rewrite ltb_val in H by easy. revert H. now destruct (Rlt_bool_spec (val a) (val b)). Qed.

Section Binary64.
Variables fexp flog : b64 -> b64.
Local Instance b64num : Num b64 := B64 fexp flog.

(** In binary64 the last node need not be xDom: with xDom = 1 and J = 50 it is below 1, so a
    spot of 1 lies outside the grid. *)
Theorem C66_binary64_last_node : forall k tDom N p o ip sv mem w (cf : Conf b64) s,
  Fdm_ctor k n1 50 tDom N p o ip sv mem w = Ok (cf, s) ->
  length (cX cf) = 50%nat /\ nltb (nth 49 (cX cf) n0) n1 = true.
Proof.
  intros k tDom N p o ip sv mem w cf s E.
  assert (J0 : (0 <= 50)%Z) by lia.
  destruct (ctor_ok _ _ _ _ _ _ _ _ _ _ _ _ _ _ _ J0 E) as (_ & _ & _ & _ & _ & _ & _ & _ & DX & _ & _ & X & _).
  rewrite X, DX. split; [reflexivity|].
  change (nltb (nmul (nofZ 49) (ndiv n1 (nofZ (ulsub 50 1)))) (n1 : b64) = true). vm_compute. reflexivity.
Qed.

(** In binary64 the number of steps can be wrong: with tDom = 1 and N = 11 the sum of ten
    steps of 0.1 is below 1, so an eleventh step is made, beyond tDom. *)
Theorem C67_binary64_extra_step : forall lu k xDom J p o ip sv mem w0 (cf : Conf b64) s,
  (0 <= J)%Z ->
  Fdm_ctor k xDom J n1 11 p o ip sv mem w0 = Ok (cf, s) ->
  (forall w fuel v s', solve lu cf w fuel s = Some (Ok v, s') ->
     exists s1, steps lu cf w 11 s s1 /\ nltb n1 (fTCurr s1) = true /\ v = fNew s1) /\
  (forall w s1 fuel, steps lu cf w 11 s s1 -> (11 <= fuel)%nat ->
     nltb n1 (fTCurr s1) = true /\ solve lu cf w fuel s = Some (Ok (fNew s1), finished s1)).
Proof.
  intros lu k xDom J p o ip sv mem w0 cf s J0 E.
  destruct (ctor_ok _ _ _ _ _ _ _ _ _ _ _ _ _ _ _ J0 E)
    as (_ & _ & _ & TD & _ & _ & _ & _ & _ & _ & DT & _ & _ & _ & _ & TP & TC & _).
  pose (tick := fix tick (i : nat) (t : b64) : b64 :=
    match i with O => t | Datatypes.S i' => tick i' (nadd t (ndiv n1 (nofZ (ulsub 11 1)))) end).
  assert (CL : forall i t, clock cf i t = tick i t).
  { induction i as [|i IH]; intros t; [easy|]. cbn [clock]. rewrite IH, DT. reflexivity. }
  assert (LT : forall i, (i < 11)%nat -> nltb (clock cf i (fTPrev s)) (cTDom cf) = true).
  { intros i I. rewrite CL, TP, TD. do 11 (destruct i as [|i]; [vm_compute; reflexivity|]). lia. }
  assert (GE : nltb (clock cf 11 (fTPrev s)) (cTDom cf) = false).
  { rewrite CL, TP, TD. vm_compute. reflexivity. }
  assert (C0 : fTCurr s = fTPrev s) by congruence.
  assert (LATE : forall w s1, steps lu cf w 11 s s1 -> nltb n1 (fTCurr s1) = true).
  { intros w s1 ST. apply steps_clock in ST as (CP & CC & _). rewrite CC by lia. rewrite CP, CL, TP. vm_compute. reflexivity. }
  split.
  - intros w fuel v s' SO. apply solve_march in SO as (s1 & M & V & F). exists s1.
    assert (ST := march_steps lu cf w 11 fuel s C0 LT GE s1 M). split; [easy|]. split; [|easy]. eapply LATE; eauto.
  - intros w s1 fuel ST F. split; [eapply LATE; eauto|]. unfold solve. rewrite (steps_march lu cf w 11 fuel s s1); auto.
Qed.

(** ** C78: the time loop ends *)
(** With N = 0 the step is 2^-64, and at 2^-11 the clock stops moving: solve never
    returns. *)
Theorem C78_never_returns : forall lu k xDom J p o ip sv mem w0 (cf : Conf b64) s,
  (0 <= J)%Z ->
  Fdm_ctor k xDom J n1 0 p o ip sv mem w0 = Ok (cf, s) ->
  (forall w fuel v s', solve lu cf w fuel s <> Some (Ok v, s')) /\
  (forall w c, evaluates p w c -> k = KExplicit -> (2 <= J < ULONG_MOD)%Z -> forall fuel, solve lu cf w fuel s = None).
Proof.
  intros lu k xDom J p o ip sv mem w0 cf s J0 E.
  destruct (ctor_ok _ _ _ _ _ _ _ _ _ _ _ _ _ _ _ J0 E)
    as (SC & _ & _ & TD & _ & EP & _ & _ & _ & _ & DT & _ & _ & _ & _ & TP & TC & _).
  set (top := ndiv n1 (nofZ (2 ^ 11)) : b64).
  assert (DF : finite (cDt cf)) by (rewrite DT; vm_compute; reflexivity).
  assert (TF : finite top) by (vm_compute; reflexivity).
  pose (low := fun t : b64 => finite t /\ 0 <= val t <= val top).
  assert (VT : val top < 1).
  { rewrite <- n1_val. apply ltb_lt; [now apply finite_notnan|apply n1_notnan|vm_compute; reflexivity]. }
  assert (DP : 0 <= val (cDt cf)).
  { rewrite <- n0_val. apply leb_le; [apply n0_notnan|now apply finite_notnan|rewrite DT; vm_compute; reflexivity]. }
  assert (STALL : fl (val top + val (cDt cf)) <= val top).
  { destruct (val_add top (cDt cf) TF DF) as [NN V]. rewrite <- V.
    apply leb_le; [exact NN|now apply finite_notnan|rewrite DT; vm_compute; reflexivity]. }
  assert (NEXT : forall t, low t -> low (nadd t (cDt cf))).
  { intros t (F & A & B). change (nadd t (cDt cf)) with (b64_add t (cDt cf)). destruct (val_add t (cDt cf) F DF) as [NN V].
    assert (A' : 0 <= val (b64_add t (cDt cf))) by (rewrite V; apply fl_nonneg; lra).
    assert (B' : val (b64_add t (cDt cf)) <= val top).
    { rewrite V. eapply Rle_trans; [apply fl_le|exact STALL]. lra. }
    split; [|split; easy]. destruct (notnan_cases _ NN) as [G|[G|G]]; [easy| |];
      rewrite G in A', B'; cbn [val] in A', B'; pose proof INF_pos;
      pose proof (val_bounds _ n1_finite) as VB; rewrite n1_val in VB; lra. }
  assert (LOW0 : low (fTPrev s)).
  { rewrite TP. split; [apply n0_finite|]. change (n0 : b64) with (@n0 b64 B64_basic). rewrite n0_val. split; [lra|].
    rewrite <- n0_val. apply leb_le; [apply n0_notnan|now apply finite_notnan|vm_compute; reflexivity]. }
  assert (LESS : forall t, low t -> nltb t (cTDom cf) = true).
  { intros t (F & A & B). rewrite TD. change (b64_ltb t (@n1 b64 B64_basic) = true).
    rewrite ltb_val; [|now apply finite_notnan|apply n1_notnan]. apply Rlt_bool_true. rewrite n1_val. lra. }
  assert (C0 : fTCurr s = fTPrev s) by congruence.
  assert (NEVER : forall w fuel s, fTCurr s = fTPrev s -> low (fTPrev s) -> forall s', march lu cf w fuel s <> Some (Ok tt, s')).
  { intros w. induction fuel as [|fuel IH]; intros s1 C1 L1 s'; cbn [march]; rewrite C1, LESS by easy; [discriminate|].
    destruct (time_step lu cf w s1) as [[[]|e|] s2] eqn:ST; try discriminate.
    apply step_ok_clock in ST as (P & C & _). apply IH; [congruence|]. rewrite P. now apply NEXT. }
  split.
  - intros w fuel v s' SO. apply solve_march in SO as (s1 & M & _). now apply (NEVER w fuel s) in M.
  - intros w c EV KE HJ. assert (SZ := ctor_sized _ _ _ _ _ _ _ _ _ _ _ _ _ _ _ (conj J0 (proj2 HJ)) E).
    rewrite <- EP in EV. subst k. cbn [scheme_of] in SC.
    assert (G : forall fuel s, sized cf s (Z.to_nat J) -> fTCurr s = fTPrev s -> low (fTPrev s) -> march lu cf w fuel s = None).
    { induction fuel as [|fuel IH]; intros s1 SZ1 C1 L1; cbn [march]; rewrite C1, LESS by easy; [easy|].
      pose proof (explicit_step lu cf w c (Z.to_nat J) EV s1 SC SZ1 ltac:(lia)) as ST. rewrite ST.
      apply IH; [eapply sized_step; eauto| |]; apply step_ok_clock in ST as (P & C & _); [congruence|]. rewrite P. now apply NEXT. }
    intros fuel. unfold solve. now rewrite G.
Qed.
End Binary64.
Print Assumptions C66_binary64_last_node.
Print Assumptions C67_binary64_extra_step.
Print Assumptions C78_never_returns.

(** ** C74 *)
(** Calls on a solver, each in the market of its moment. *)
Inductive fcall (T : Type) := FSolve (w : Market T) (fuel : nat) | FPrice (w : Market T) (fuel : nat).
Arguments FSolve {T} w fuel. Arguments FPrice {T} w fuel.
Definition fcall_run {T} {num : Num T} (lu : LuAlg T) (cf : Conf T) (c : fcall T) (s : Fdm T) : option (Fdm T) :=
  match c with
  | FSolve w fuel => option_map snd (solve lu cf w fuel s)
  | FPrice w fuel => option_map snd (calculatePrice lu cf w fuel s)
  end.
Fixpoint frun {T} {num : Num T} (lu : LuAlg T) (cf : Conf T) (h : list (fcall T)) (s : Fdm T) : option (Fdm T) :=
  match h with
  | [] => Some s
  | c :: h' => match fcall_run lu cf c s with Some s' => frun lu cf h' s' | None => None end
  end.

Lemma march_end : forall T (num : Num T) lu cf w fuel (s s' : Fdm T),
  march lu cf w fuel s = Some (Ok tt, s') -> nltb (fTCurr s') (cTDom cf) = false.
Proof.
  intros T num lu cf w. induction fuel as [|fuel IH]; intros s s' E; cbn [march] in E;
    destruct (nltb (fTCurr s) (cTDom cf)) eqn:C; try discriminate; try (injection E as <-; exact C).
  destruct (time_step lu cf w s) as [[[]|e|] s1]; try discriminate. eauto.
Qed.
Lemma march_done : forall T (num : Num T) lu cf w fuel (s : Fdm T),
  nltb (fTCurr s) (cTDom cf) = false -> march lu cf w fuel s = Some (Ok tt, s).
Proof. intros T num lu cf w [|fuel] s E; cbn [march]; now rewrite E. Qed.

(** After a solve that returned [v], whatever calls follow in whatever markets: the object
    does not change, solve returns [v] again, and calculatePrice interpolates [v] at the
    spot of the moment. *)
Theorem C74_solved_once : forall T (num : Num T) lu cf w fuel (s : Fdm T) v s',
  solve lu cf w fuel s = Some (Ok v, s') ->
  forall h, frun lu cf h s' = Some s' /\
  (forall w' fuel', solve lu cf w' fuel' s' = Some (Ok v, s')) /\
  (forall w' fuel' d, read (optTicker (cOption cf)) w' = Ok d ->
     calculatePrice lu cf w' fuel' s' = Some (interpolate (cInterp cf) (cX cf) v (S_ d), s')).
Proof.
  intros T num lu cf w fuel s v s' E.
  apply solve_march in E as (s1 & M & V & F). apply march_end in M.
  assert (EQ : finished s' = s') by (subst s'; reflexivity).
  assert (SV : fSolved s' = true) by (subst s'; reflexivity).
  assert (VN : v = fNew s') by (subst s'; exact V).
  assert (TC : nltb (fTCurr s') (cTDom cf) = false) by (subst s'; exact M).
  assert (SO : forall w' fuel', solve lu cf w' fuel' s' = Some (Ok v, s')).
  { intros w' fuel'. unfold solve. rewrite march_done by easy. unfold fbind, flift, setSolved, fget, fret.
    cbn [fNew]. fold (finished s'). rewrite EQ, VN. reflexivity. }
  intros h. split; [|split; [exact SO|]].
  - induction h as [|[w' fuel'|w' fuel'] h IH]; [easy| |]; cbn [frun fcall_run].
    + rewrite SO. exact IH.
    + unfold calculatePrice. rewrite SV. cbn [option_map]. unfold read_price, fbind, flift, fget.
      destruct (stock_of (cOption cf) w'); cbn [snd]; exact IH.
  - intros w' fuel' d RD. unfold calculatePrice. rewrite SV. unfold read_price, fbind, flift, fget.
    change (stock_of (cOption cf) w') with (read (optTicker (cOption cf)) w'). rewrite RD. now rewrite VN.
Qed.
Print Assumptions C74_solved_once.

(** In exact arithmetic the price at a spot on the grid is the computed value there, for
    both interpolations. *)
Theorem C74_node_price : forall lu k xDom J tDom N p o ip sv mem w0 (cf : Conf R) s0,
  (2 <= J <= UINT_MOD)%Z -> 0 < xDom ->
  ip = None \/ ip = Some LinearInterpolation \/ ip = Some QuadraticInterpolation ->
  Fdm_ctor k xDom J tDom N p o ip sv mem w0 = Ok (cf, s0) ->
  forall w fuel v s', solve lu cf w fuel s0 = Some (Ok v, s') ->
  length v = Z.to_nat J /\
  forall w' fuel' d i, read (optTicker o) w' = Ok d -> (i < Z.to_nat J)%nat -> S_ d = el (cX cf) i ->
    calculatePrice lu cf w' fuel' s' = Some (Ok (el v i), s').
Proof.
  intros lu k xDom J tDom N p o ip sv mem w0 cf s0 HJ HX IP E w fuel v s' SO.
  assert (HJ' : (2 <= J < ULONG_MOD)%Z) by (unfold UINT_MOD, ULONG_MOD in *; lia).
  destruct (C66_grid _ _ _ _ _ _ _ _ _ _ _ _ _ HJ' HX E) as (LX & _ & _ & INC & _).
  assert (J0 : (0 <= J)%Z) by lia.
  destruct (ctor_ok _ _ _ _ _ _ _ _ _ _ _ _ _ _ _ J0 E) as (_ & _ & _ & _ & _ & _ & OP & CI & _ & _ & _ & _ & _ & _ & FN & _).
  assert (LV : length v = Z.to_nat J).
  { pose proof SO as SO'. apply solve_march in SO' as (s1 & M & V & _). rewrite V. clear V SO.
    assert (L0 : length (fNew s0) = Z.to_nat J) by (rewrite FN; apply repeat_length).
    revert s0 M L0 E FN. intros s0 M L0 _ _. revert s0 M L0. induction fuel as [|fuel IH]; intros s0 M L0; cbn [march] in M;
      destruct (nltb (fTCurr s0) (cTDom cf)); try discriminate; try (injection M as <-; exact L0).
    destruct (time_step lu cf w s0) as [[[]|e|] s2] eqn:ST; try discriminate. apply (IH s2); auto.
    apply step_ok_clock in ST as (_ & _ & _ & L & _). congruence. }
  split; [easy|]. intros w' fuel' d i RD I SD.
  destruct (C74_solved_once _ _ _ _ _ _ _ _ _ SO []) as (_ & _ & P). rewrite <- OP in RD. rewrite (P w' fuel' d RD). clear P.
  do 3 f_equal. rewrite SD. set (n := Z.to_nat J) in *.
  assert (NE : cX cf <> []) by (intros Z0; rewrite Z0 in LX; cbn in LX; lia).
  assert (ND : node (cX cf) v i (el (cX cf) i) (el v i)) by (split; apply nth_error_nth'; lia).
  destruct (C55_linear_interpolation (cX cf) v (el (cX cf) i) NE ltac:(lia) INC) as (y & L & Y & _).
  destruct (C57_quadratic_interpolation (cX cf) v (el (cX cf) i) NE ltac:(unfold UINT_MOD in *; lia) ltac:(lia) INC) as (z & Q & Z0 & _).
  rewrite CI. destruct IP as [-> |[-> | ->]]; cbn [interpolate]; [rewrite L|rewrite L|rewrite Q]; f_equal; eauto.
Qed.
Print Assumptions C74_node_price.

(** ** C73 *)
(** With tDom = 0 the loop never runs, and every price is 0 whatever the payoff. *)
Theorem C73_zero_prices : forall lu k xDom J N p o ip sv mem w0 (cf : Conf R) s0,
  (2 <= J < ULONG_MOD)%Z -> 0 < xDom -> ip = None \/ ip = Some LinearInterpolation ->
  Fdm_ctor k xDom J 0 N p o ip sv mem w0 = Ok (cf, s0) ->
  forall w fuel d, read (optTicker o) w = Ok d ->
  calculatePrice lu cf w fuel s0 = Some (Ok 0, finished s0).
Proof.
  intros lu k xDom J N p o ip sv mem w0 cf s0 HJ HX IP E w fuel d RD.
  destruct (C66_grid _ _ _ _ _ _ _ _ _ _ _ _ _ HJ HX E) as (LX & _ & _ & INC & _).
  assert (J0 : (0 <= J)%Z) by lia.
  destruct (ctor_ok _ _ _ _ _ _ _ _ _ _ _ _ _ _ _ J0 E)
    as (_ & _ & _ & TD & _ & _ & OP & CI & _ & _ & _ & _ & _ & _ & FN & _ & TC & FS & _).
  assert (C : nltb (fTCurr s0) (cTDom cf) = false).
  { rewrite TC, TD. apply Rlt_bool_false. apply Rle_refl. }
  unfold calculatePrice, solve. rewrite FS, march_done by easy. unfold fbind, flift, setSolved, fget, fret. cbn [fNew].
  fold (finished s0). unfold read_price, fbind, flift, fget. rewrite OP. change (stock_of o w) with (read (optTicker o) w). rewrite RD.
  do 2 f_equal. cbn [finished fNew]. rewrite FN.
  assert (IQ : interpolate (cInterp cf) = linear_interpolate) by (rewrite CI; destruct IP as [-> | ->]; reflexivity).
  rewrite IQ. clear IQ. set (n := Z.to_nat J) in *. set (xs := cX cf) in *.
  assert (NE : xs <> []) by (intros Z0; rewrite Z0 in LX; cbn in LX; lia).
  destruct (C55_linear_interpolation xs (repeat (n0 : R) n) (getPrice d) NE) as (y & L & _ & M & F & B & _);
    [rewrite repeat_length; lia|exact INC|].
  rewrite L. f_equal.
  assert (Z : forall i a b, node xs (repeat (n0 : R) n) i a b -> b = 0).
  { intros i a b [_ NB]. apply nth_error_In, repeat_spec in NB. exact NB. }
  assert (LR : length (repeat (n0 : R) n) = length xs) by (rewrite repeat_length; lia).
  destruct (node_exists xs (repeat (n0 : R) n) 0 LR ltac:(lia)) as (a0 & b0 & A0).
  destruct (node_exists xs (repeat (n0 : R) n) (length xs - 1) LR ltac:(lia)) as (an & bn & AN).
  destruct (Rle_lt_dec (getPrice d) a0) as [H|H]; [rewrite (F _ _ A0 H); eapply Z; eauto|].
  destruct (Rle_lt_dec an (getPrice d)) as [H'|H']; [rewrite (B _ _ AN H'); eapply Z; eauto|].
  assert (G : Forall (fun _ : R => True) xs) by (apply Forall_forall; auto).
  assert (ORD : forall m, (m < length xs)%nat -> forall am bm, node xs (repeat (n0 : R) n) m am bm -> getPrice d < am -> y = 0).
  { induction m as [|m IH]; intros Hm am bm AM LT.
    - destruct AM as [AM _], A0 as [A0' _]. rewrite AM in A0'. injection A0' as ->. lra.
    - destruct (node_exists xs (repeat (n0 : R) n) m LR ltac:(lia)) as (a & b & AB).
      destruct (Rlt_le_dec (getPrice d) a) as [Q|Q]; [now apply (IH ltac:(lia) a b)|].
      replace (Datatypes.S m) with (m + 1)%nat in AM by lia.
      pose proof (M m a b am bm AB AM ltac:(lra)) as MM. rewrite (Z _ _ _ AB), (Z _ _ _ AM) in MM.
      rewrite Rmin_left, Rmax_left in MM by lra. lra. }
  eapply (ORD (length xs - 1)%nat); eauto. lia.
Qed.
Print Assumptions C73_zero_prices.
