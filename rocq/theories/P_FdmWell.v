(** Property C111: the implicit and the Crank-Nicolson step for the Black-Scholes equation
    are well defined, whatever the volatility, the dividend and the grid. *)
From Coq Require Import String List ZArith Bool Lia Reals Lra.
From Flocq Require Import Core.
From Verif Require Import M_Num M_Outcome M_Dict M_Stock M_Market M_Payoff M_Option M_Numeric M_Fdm.
From Verif Require Import S_Market S_Model S_Numeric S_Fdm S_FdmWell L_Dict L_Numeric L_Fdm P_LinearSystem P_FdmMarch P_FdmScheme L_FdmPivot.
Import ListNotations.
Local Open Scope R_scope.

(** The coefficients of the systems. *)
Lemma i_form : forall (cf : Conf R) k sigma r c n t, black_scholes k sigma r c ->
  cDx2 cf = cDx cf * cDx cf -> (forall j, (j < n)%nat -> el (cX cf) j = INR j * cDx cf) ->
  forall j, (1 <= j <= n - 2)%nat ->
  i_al cf k t j = cDx cf * cDx cf * (cDt cf / 2 * (sigma * sigma * INR j * INR j - (r - c) * INR j)) /\
  i_be cf k t j = - (cDx cf * cDx cf * (1 + r * cDt cf + cDt cf * (sigma * sigma) * INR j * INR j)) /\
  i_ga cf k t j = cDx cf * cDx cf * (cDt cf / 2 * (sigma * sigma * INR j * INR j + (r - c) * INR j)).
Proof.
  intros cf k sigma r c n t BS D2 GE j J. unfold i_al, i_be, i_ga. rewrite half_half, two_two, D2. cbn [nadd nsub nmul nopp Rnum].
  change (@at_ R Rnum) with el. rewrite GE by lia. destruct (BS t (INR j * cDx cf)) as (-> & -> & ->).
  split; [|split]; field.
Qed.
Lemma c_form : forall (cf : Conf R) k sigma r c n t, black_scholes k sigma r c ->
  cDx2 cf = cDx cf * cDx cf -> (forall j, (j < n)%nat -> el (cX cf) j = INR j * cDx cf) ->
  forall j, (1 <= j <= n - 2)%nat ->
  c_al cf k t j = cDx cf * cDx cf * (cDt cf / 2 / 2 * (sigma * sigma * INR j * INR j - (r - c) * INR j)) /\
  c_be cf k t j = - (cDx cf * cDx cf * (1 + r * cDt cf / 2 + cDt cf / 2 * (sigma * sigma) * INR j * INR j)) /\
  c_ga cf k t j = cDx cf * cDx cf * (cDt cf / 2 / 2 * (sigma * sigma * INR j * INR j + (r - c) * INR j)).
Proof.
  intros cf k sigma r c n t BS D2 GE j J. unfold c_al, c_be, c_ga. rewrite half_half, D2. cbn [nadd nsub nmul nopp Rnum].
  change (@at_ R Rnum) with el. rewrite GE by lia. destruct (BS t (INR j * cDx cf)) as (-> & -> & ->).
  split; [|split]; field.
Qed.

(** The equations of a layer as rows of a system. *)
Lemma implicit_eq_row : forall k dt h t xs old new j, 0 < h -> 0 < dt ->
  implicit_eq k dt h t xs old new j -> let x := el xs j in
  (dt * kd k t x - / 2 * dt * h * kc k t x) * el new (j - 1) + (- (h * h) - 2 * (dt * kd k t x) + dt * (h * h) * kr k t x) * el new j
  + (dt * kd k t x + / 2 * dt * h * kc k t x) * el new (j + 1) = h * h * (dt * kf k t x - el old j).
Proof.
  intros k dt h t xs old new j HH HT EQ x. unfold implicit_eq, space_at, space in EQ. fold x in EQ.
  apply (f_equal (fun y => y * (dt * (h * h)))) in EQ.
  assert (L : (el new j - el old j) / dt * (dt * (h * h)) = (el new j - el old j) * (h * h)) by (field; lra). rewrite L in EQ.
  assert (R : (kd k t x * ((el new (j + 1) - 2 * el new j + el new (j - 1)) / (h * h)) + kc k t x * ((el new (j + 1) - el new (j - 1)) / (2 * h)) +
      kr k t x * el new j - kf k t x) * (dt * (h * h)) =
      dt * kd k t x * (el new (j + 1) - 2 * el new j + el new (j - 1)) + / 2 * dt * h * kc k t x * (el new (j + 1) - el new (j - 1))
      + dt * (h * h) * kr k t x * el new j - dt * (h * h) * kf k t x) by (field; lra).
  rewrite R in EQ. lra.
Qed.

(** ** C111, implicit Euler.  The only condition is 1 + r dt > 0, which every rate r >= 0
    meets; no warning, no relation between volatility, rate and grid matters. *)
Theorem C111_implicit : forall lu xDom J tDom N p o ip mem w0 (cf : Conf R) s w k sigma r c,
  (4 <= J < ULONG_MOD)%Z -> (J - 4 <= INT_MAX)%Z -> (2 <= N < ULONG_MOD)%Z -> 0 < xDom -> 0 < tDom ->
  Fdm_ctor KImplicit xDom J tDom N p o ip (Some ThomasAlgorithm) mem w0 = Ok (cf, s) -> evaluates p w k ->
  black_scholes k sigma r c -> 0 < 1 + r * (tDom / (IZR N - 1)) ->
  let m := Z.to_nat (N - 1) in
  let link := implicit_layer k (tDom / (IZR N - 1)) (xDom / (IZR J - 1)) (cX cf) (Z.to_nat J) in
  exists v s', (forall fuel, (m <= fuel)%nat -> solve lu cf w fuel s = Some (Ok v, s')) /\
    layers link (fOld s) m v /\ (forall v', layers link (fOld s) m v' -> v' = v).
Proof.
  intros lu xDom J tDom N p o ip mem w0 cf s w k sigma r c HJ MX HN HX HT E EV BS Q m link.
  assert (HJ' : (2 <= J < ULONG_MOD)%Z) by lia. assert (J0 : (0 <= J)%Z) by lia.
  pose proof (grid_el _ _ _ _ _ _ _ _ _ _ _ _ _ HJ' E) as GE.
  destruct (ctor_facts _ _ _ _ _ _ _ _ _ _ _ _ _ HJ' HN HX HT E) as (SC & EP & DX & DT & DX0 & DT0 & D2 & SZ0 & TI).
  unfold link. rewrite <- DX, <- DT. rewrite <- DX in GE. rewrite <- DT in Q. rewrite <- EP in EV. cbn [scheme_of] in SC.
  destruct (C67_exact lu _ _ _ _ _ _ _ _ _ _ _ _ _ HN HT J0 E) as (_ & RUN & CL).
  set (n := Z.to_nat J) in *.
  assert (H2 : 0 < cDx cf * cDx cf) by nra. assert (HS : 0 <= sigma * sigma) by nra.
  assert (FORM := fun t => i_form cf k sigma r c n t BS D2 GE).
  assert (G : forall i, (i <= m)%nat -> exists s1, steps lu cf w i s s1 /\ sized cf s1 n /\ (i <> 0%nat -> fOld s1 = fNew s1) /\
              layers (implicit_layer k (cDt cf) (cDx cf) (cX cf) n) (fOld s) i (fOld s1)).
  { induction i as [|i IH]; intros I.
    - exists s. repeat split; try apply SZ0; [constructor|lia|constructor].
    - destruct (IH ltac:(lia)) as (s1 & ST & SZ & _ & LY).
      pose proof (CL _ _ _ ST) as TPI. rewrite <- DT in TPI.
      assert (TN : fTPrev s1 + cDt cf = INR (i + 1) * cDt cf) by (rewrite TPI, plus_INR; cbn; ring).
      destruct (bs_solved (cDx cf * cDx cf) (cDt cf) (sigma * sigma) (r - c) (1 + r * cDt cf) n (i_rhs cf k n s1) H2 DT0 HS Q
        (i_al cf k (nadd (fTPrev s1) (cDt cf))) (i_be cf k (nadd (fTPrev s1) (cDt cf))) (i_ga cf k (nadd (fTPrev s1) (cDt cf))))
        as (sol & ES & SO & _); try (intros; now apply FORM); try lia.
      { unfold i_rhs. now rewrite map_length, seq_length. }
      destruct (implicit_step_solved lu cf w k n s1 ThomasAlgorithm sol SC EV SZ ltac:(lia) DX0 DT0 D2 ES SO)
        as (s2 & E2 & ON & L2 & B0 & B1 & EQ).
      rewrite TN in B0, B1, EQ.
      exists s2. split; [eapply steps_add1; eauto|]. split; [eapply sized_step; eauto|]. split; [easy|].
      econstructor; [exact LY|]. unfold implicit_layer. rewrite ON. repeat split; auto. }
  destruct (G m ltac:(lia)) as (s1 & ST & _ & ON & LY). rewrite ON in LY by (unfold m; lia).
  exists (fNew s1), (finished s1). split; [intros fuel F; now apply RUN|]. split; [easy|].
  assert (U : forall i v v', layers (implicit_layer k (cDt cf) (cDx cf) (cX cf) n) (fOld s) i v ->
    layers (implicit_layer k (cDt cf) (cDx cf) (cX cf) n) (fOld s) i v' -> v' = v).
  { induction i as [|i IH]; intros v v' L L'.
    - inversion L; inversion L'. congruence.
    - inversion L as [|? u ? LU K]; inversion L' as [|? u' ? LU' K']; subst.
      assert (EU : u' = u) by (apply IH; auto). subst u'.
      destruct K as (LN & B0 & B1 & EQ), K' as (LN' & B0' & B1' & EQ'). set (t := INR (i + 1) * cDt cf) in *.
      apply (list_at v' v); [congruence|]. intros j Jn. change (@at_ R Rnum) with el.
      assert (Z : el v' j - el v j = 0); [|lra].
      apply (bs_homogeneous (cDx cf * cDx cf) (cDt cf) (sigma * sigma) (r - c) (1 + r * cDt cf) n
        (i_al cf k t) (i_be cf k t) (i_ga cf k t) (fun j => el v' j - el v j) H2 DT0 HS Q); try (intros; now apply FORM); try lia; try lra.
      clear j Jn. intros j JJ. specialize (EQ j JJ). specialize (EQ' j JJ).
      apply implicit_eq_row in EQ, EQ'; auto. unfold i_al, i_be, i_ga. rewrite half_half, two_two, D2. cbn [nadd nsub nmul nopp Rnum].
      change (@at_ R Rnum) with el. lra. }
  intros v'. now apply U.
Qed.
Print Assumptions C111_implicit.

Lemma cn_eq_row : forall k dt h t t' xs old new j, 0 < h -> 0 < dt ->
  cn_eq k dt h t t' xs old new j -> let x := el xs j in
  / 2 * (dt * kd k t' x - / 2 * dt * h * kc k t' x) * el new (j - 1)
  + (- (h * h) - dt * kd k t' x + / 2 * dt * (h * h) * kr k t' x) * el new j
  + / 2 * (dt * kd k t' x + / 2 * dt * h * kc k t' x) * el new (j + 1)
  = - (h * h) * (el old j + dt / 2 * (space_at k t h xs old j - kf k t x - kf k t' x)).
Proof.
  intros k dt h t t' xs old new j HH HT EQ x. unfold cn_eq in EQ. fold x in EQ.
  set (so := space_at k t h xs old j) in *. unfold space_at, space in EQ. fold x in EQ.
  apply (f_equal (fun y => y * (dt * (h * h)))) in EQ.
  assert (L : (el new j - el old j) / dt * (dt * (h * h)) = (el new j - el old j) * (h * h)) by (field; lra). rewrite L in EQ.
  assert (R : (so - kf k t x + (kd k t' x * ((el new (j + 1) - 2 * el new j + el new (j - 1)) / (h * h)) +
      kc k t' x * ((el new (j + 1) - el new (j - 1)) / (2 * h)) + kr k t' x * el new j - kf k t' x)) / 2 * (dt * (h * h)) =
      / 2 * (dt * (h * h) * (so - kf k t x) + (dt * kd k t' x * (el new (j + 1) - 2 * el new j + el new (j - 1))
      + / 2 * dt * h * kc k t' x * (el new (j + 1) - el new (j - 1)) + dt * (h * h) * kr k t' x * el new j - dt * (h * h) * kf k t' x))) by (field; lra).
  rewrite R in EQ. lra.
Qed.

(** Crank-Nicolson with the Thomas solver; the layers are those of the code (C70). *)
Theorem C111_crank_nicolson : forall lu xDom J tDom N p o ip mem w0 (cf : Conf R) s w k sigma r c,
  (4 <= J < ULONG_MOD)%Z -> (J - 4 <= INT_MAX)%Z -> (2 <= N < ULONG_MOD)%Z -> 0 < xDom -> 0 < tDom ->
  Fdm_ctor KCrankNicolson xDom J tDom N p o ip (Some ThomasAlgorithm) mem w0 = Ok (cf, s) -> evaluates p w k ->
  black_scholes k sigma r c -> 0 < 1 + r * (tDom / (IZR N - 1)) / 2 ->
  let m := Z.to_nat (N - 1) in
  let link := cn_layer_code k (tDom / (IZR N - 1)) (xDom / (IZR J - 1)) (cX cf) (Z.to_nat J) in
  exists v s', (forall fuel, (m <= fuel)%nat -> solve lu cf w fuel s = Some (Ok v, s')) /\
    layers link (fOld s) m v /\ (forall v', layers link (fOld s) m v' -> v' = v).
Proof.
  intros lu xDom J tDom N p o ip mem w0 cf s w k sigma r c HJ MX HN HX HT E EV BS Q m link.
  assert (HJ' : (2 <= J < ULONG_MOD)%Z) by lia. assert (J0 : (0 <= J)%Z) by lia.
  pose proof (grid_el _ _ _ _ _ _ _ _ _ _ _ _ _ HJ' E) as GE.
  destruct (ctor_facts _ _ _ _ _ _ _ _ _ _ _ _ _ HJ' HN HX HT E) as (SC & EP & DX & DT & DX0 & DT0 & D2 & SZ0 & TI).
  destruct (ctor_ok _ _ _ _ _ _ _ _ _ _ _ _ _ _ _ J0 E)
    as (_ & _ & _ & _ & _ & _ & _ & _ & _ & _ & _ & _ & _ & _ & _ & _ & _ & _ & LB). destruct (LB ltac:(discriminate)) as [_ LB0].
  unfold link. rewrite <- DX, <- DT. rewrite <- DX in GE. rewrite <- DT in Q. rewrite <- EP in EV. cbn [scheme_of] in SC.
  destruct (C67_exact lu _ _ _ _ _ _ _ _ _ _ _ _ _ HN HT J0 E) as (_ & RUN & CL).
  set (n := Z.to_nat J) in *.
  assert (H2 : 0 < cDx cf * cDx cf) by nra. assert (HS : 0 <= sigma * sigma) by nra. assert (HA : 0 < cDt cf / 2) by lra.
  assert (FORM := fun t => c_form cf k sigma r c n t BS D2 GE).
  assert (G : forall i, (i <= m)%nat -> exists s1, steps lu cf w i s s1 /\ sized cf s1 n /\
              length (fB s1) = (n - 2)%nat /\ (i <> 0%nat -> fOld s1 = fNew s1) /\
              layers (cn_layer_code k (cDt cf) (cDx cf) (cX cf) n) (fOld s) i (fOld s1)).
  { induction i as [|i IH]; intros I.
    - exists s. repeat split; try apply SZ0; auto; [constructor|lia|constructor].
    - destruct (IH ltac:(lia)) as (s1 & ST & SZ & LB1 & _ & LY).
      pose proof (CL _ _ _ ST) as TPI. rewrite <- DT in TPI.
      assert (TN : fTPrev s1 + cDt cf = INR (i + 1) * cDt cf) by (rewrite TPI, plus_INR; cbn; ring).
      destruct (bs_solved (cDx cf * cDx cf) (cDt cf / 2) (sigma * sigma) (r - c) (1 + r * cDt cf / 2) n (b_upto cf k n s1 (n - 2)) H2 HA HS Q
        (c_al cf k (nadd (fTPrev s1) (cDt cf))) (c_be cf k (nadd (fTPrev s1) (cDt cf))) (c_ga cf k (nadd (fTPrev s1) (cDt cf))))
        as (sol & ES & SO & _); try (intros; now apply FORM); try lia.
      { unfold b_upto. now rewrite map_length, seq_length. }
      destruct (cn_step_solved lu cf w k n s1 sol SC EV SZ ltac:(lia) LB1 ltac:(lia) DX0 DT0 D2 ES SO)
        as (s2 & E2 & ON & L2 & LB2 & B0 & B1 & EQ).
      rewrite TN in B0, B1, EQ. rewrite TPI in EQ.
      exists s2. split; [eapply steps_add1; eauto|]. split; [eapply sized_step; eauto|]. split; [easy|]. split; [easy|].
      econstructor; [exact LY|]. unfold cn_layer_code. rewrite ON. repeat split; auto. }
  destruct (G m ltac:(lia)) as (s1 & ST & _ & _ & ON & LY). rewrite ON in LY by (unfold m; lia).
  exists (fNew s1), (finished s1). split; [intros fuel F; now apply RUN|]. split; [easy|].
  assert (U : forall i v v', layers (cn_layer_code k (cDt cf) (cDx cf) (cX cf) n) (fOld s) i v ->
    layers (cn_layer_code k (cDt cf) (cDx cf) (cX cf) n) (fOld s) i v' -> v' = v).
  { induction i as [|i IH]; intros v v' L L'.
    - inversion L; inversion L'. congruence.
    - inversion L as [|? u ? LU K]; inversion L' as [|? u' ? LU' K']; subst.
      assert (EU : u' = u) by (apply IH; auto). subst u'.
      destruct K as (LN & B0 & B1 & EQ), K' as (LN' & B0' & B1' & EQ'). set (t := INR (i + 1) * cDt cf) in *.
      apply (list_at v' v); [congruence|]. intros j Jn. change (@at_ R Rnum) with el.
      assert (Z : el v' j - el v j = 0); [|lra].
      apply (bs_homogeneous (cDx cf * cDx cf) (cDt cf / 2) (sigma * sigma) (r - c) (1 + r * cDt cf / 2) n
        (c_al cf k t) (c_be cf k t) (c_ga cf k t) (fun j => el v' j - el v j) H2 HA HS Q); try (intros; now apply FORM); try lia; try lra.
      clear j Jn. intros j JJ. specialize (EQ j JJ). specialize (EQ' j JJ).
      apply cn_eq_row in EQ, EQ'; auto. unfold c_al, c_be, c_ga. rewrite half_half, D2. cbn [nadd nsub nmul nopp Rnum].
      change (@at_ R Rnum) with el. lra. }
  intros v'. now apply U.
Qed.
Print Assumptions C111_crank_nicolson.

(** BlackScholesPDE has this operator, for every option whose boundary values exist. *)
Lemma bs_coefs_black_scholes : forall sigma r c ty K mat, black_scholes (bs_coefs sigma r c ty K mat) sigma r c.
Proof. intros sigma r c ty K mat t x. cbn. auto. Qed.

(** A case with strong convection: volatility 5 %, rate 50 %, 11 nodes, one step of a
    year; |r - c| is 200 times the squared volatility, so C69 says nothing. *)
Example C111_ex : forall lu mem, exists cf s v s',
  let o := o_bs Put 1 1 in let w := w_bs 1 (5 / 100) (50 / 100) in
  Fdm_ctor KImplicit 4 11 1 2 (BlackScholesPDE o) o None (Some ThomasAlgorithm) mem w = Ok (cf, s) /\
  (5 / 100) * (5 / 100) < Rabs (50 / 100 - 0) /\ solve lu cf w 1 s = Some (Ok v, s').
Proof.
  intros lu mem. set (o := o_bs Put 1 1). set (w := w_bs 1 (5 / 100) (50 / 100)).
  destruct (ctor_total _ _ KImplicit 4 11 1 2 (BlackScholesPDE o) o None (Some ThomasAlgorithm) mem w (initial_total Put 1 1 w) ltac:(lia)) as (cf & s & E).
  destruct (C111_implicit lu 4 11 1 2 _ o None mem w cf s w _ (5 / 100) (50 / 100) 0 ltac:(unfold ULONG_MOD; lia) ltac:(unfold INT_MAX; lia)
    ltac:(unfold ULONG_MOD; lia) ltac:(lra) ltac:(lra) E (bs_evaluates o w _ Put 1 (read_bs 1 (5 / 100) (50 / 100)) eq_refl (or_intror eq_refl))
    (bs_coefs_black_scholes _ _ _ _ _ _) ltac:(lra)) as (v & s' & SO & _).
  exists cf, s, v, s'. split; [exact E|]. split; [rewrite Rabs_pos_eq; lra|]. apply SO. cbn. lia.
Qed.
