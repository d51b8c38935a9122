(** Property C113: the finite-difference price does not depend on the unit of currency. *)
From Coq Require Import String List ZArith Bool Lia Reals Lra.
From Flocq Require Import Core.
From Verif Require Import M_Num M_Outcome M_Dict M_Stock M_Market M_Payoff M_Option M_Numeric M_Fdm.
From Verif Require Import S_Market S_Model S_Numeric S_Fdm L_Numeric L_Fdm L_Thomas P_FdmMarch P_FdmScheme P_FdmPrice.
Import ListNotations.
Local Open Scope R_scope.

(** ** Specification vocabulary *)
(** Two equations in units of currency of which the second counts [l] for 1 of the first. *)
Definition in_units (l : R) (k k' : Coefs R) : Prop :=
  forall t x, kd k' t (l * x) = l * l * kd k t x /\ kc k' t (l * x) = l * kc k t x /\ kr k' t (l * x) = kr k t x /\
    kf k' t (l * x) = l * kf k t x /\ kl k' t (l * x) = l * kl k t x /\ kg k' t (l * x) = l * kg k t x.
(** Amounts in the new unit. *)
Definition converted (l : R) (v : list R) : list R := map (Rmult l) v.

Lemma el_converted : forall l v j, el (converted l v) j = l * el v j.
Proof.
  intros l v j. unfold el, converted. destruct (Nat.lt_ge_cases j (length v)).
  - rewrite (nth_indep _ 0 (l * 0)) by now rewrite map_length. apply map_nth.
  - rewrite !nth_overflow by (rewrite ?map_length; lia). ring.
Qed.
Lemma converted_eq : forall l v v', length v' = length v -> (forall j, (j < length v)%nat -> el v' j = l * el v j) -> v' = converted l v.
Proof.
  intros l v v' L H. apply nth_ext with (d := 0) (d' := 0); [unfold converted; now rewrite map_length|].
  intros j J. change (el v' j = el (converted l v) j). rewrite el_converted. apply H. lia.
Qed.
Lemma el_map_seq : forall (g : nat -> R) a m i, (i < m)%nat -> el (map g (seq a m)) i = g (a + i)%nat.
Proof.
  intros g a m i I. unfold el. rewrite (nth_indep _ 0 (g 0%nat)) by (rewrite map_length, seq_length; exact I).
  now rewrite map_nth, seq_nth.
Qed.
Lemma ratio : forall a x y, a <> 0 -> a * x / (a * y) = x / y.
Proof. intros a x y N. unfold Rdiv. rewrite Rinv_mult. replace (a * x * (/ a * / y)) with (a * / a * (x * / y)) by ring. rewrite Rinv_r by easy. ring. Qed.

(** ** The Thomas algorithm *)
Section Thomas.
Variables (a l : R) (A A' : list (list R)) (b b' : list R) (n : nat).
Hypothesis NA : a <> 0.
Hypothesis EA : forall i j, @mat R Rnum A' i j = a * @mat R Rnum A i j.
Hypothesis EB : forall i, (i < n)%nat -> el b' i = a * l * el b i.
Local Notation tpv := (@tpv R Rnum). Local Notation tcs := (@tcs R Rnum). Local Notation tds := (@tds R Rnum). Local Notation tback := (@tback R Rnum).
Lemma sweep_scale : forall i, (i < n)%nat -> tpv A' b' i = a * tpv A b i /\ tcs A' b' i = tcs A b i /\ tds A' b' i = l * tds A b i.
Proof.
  assert (CS : forall i, tpv A' b' i = a * tpv A b i -> tcs A' b' i = tcs A b i).
  { intros i E. rewrite !tcs_eq, E, EA. apply ratio; exact NA. }
  induction i as [|i IH]; intros I.
  - assert (P : tpv A' b' 0 = a * tpv A b 0) by exact (EA 0 0). split; [exact P|]. split; [now apply CS|].
    change (el b' 0 / @mat R Rnum A' 0 0 = l * (el b 0 / @mat R Rnum A 0 0)). rewrite EA, EB by easy.
    rewrite (Rmult_assoc a), ratio by exact NA. unfold Rdiv. ring.
  - destruct IH as (IP & IC & ID); [lia|].
    assert (P : tpv A' b' (Datatypes.S i) = a * tpv A b (Datatypes.S i)).
    { rewrite !tpv_S, IC, !EA. cbn [nsub nmul Rnum]. ring. }
    split; [exact P|]. split; [now apply CS|]. rewrite !tds_S, P, ID, !EA. change (@at_ R Rnum) with el. rewrite EB by easy. cbn [nsub nmul ndiv Rnum].
    replace (a * l * el b (Datatypes.S i) - a * @mat R Rnum A (Datatypes.S i) i * (l * tds A b i))
      with (a * (l * (el b (Datatypes.S i) - @mat R Rnum A (Datatypes.S i) i * tds A b i))) by ring.
    rewrite ratio by exact NA. unfold Rdiv. ring.
Qed.
Lemma tback_scale : forall k, (k < n)%nat -> tback A' b' n k = l * tback A b n k.
Proof.
  induction k as [|k IH]; intros K; cbn [L_Thomas.tback].
  - apply sweep_scale. lia.
  - destruct (sweep_scale (n - 2 - k)) as (_ & -> & ->); [lia|]. rewrite IH by lia. cbn [nsub nmul Rnum]. ring.
Qed.
Lemma tsol_scale : @tsol R Rnum A' b' n = converted l (@tsol R Rnum A b n).
Proof.
  unfold tsol, converted. rewrite map_map. apply map_ext_in. intros i I. apply in_seq in I. apply tback_scale. lia.
Qed.
End Thomas.

(** ** Time steps *)
Section Steps.
Variable lu : LuAlg R.
Variable kind : SchemeKind.
Variable n : nat.
Variable l : R.
Hypothesis PL : 0 < l.
Hypothesis N4 : (4 <= n)%nat.
Hypothesis MX : (Z.of_nat n - 4 <= INT_MAX)%Z.
Variables (cf cf' : Conf R) (w w' : Market R) (k k' : Coefs R).
Hypothesis SC : cScheme cf = scheme_of kind (Some ThomasAlgorithm). Hypothesis SC' : cScheme cf' = scheme_of kind (Some ThomasAlgorithm).
Hypothesis E1 : cDt cf' = cDt cf. Hypothesis E2 : cDx cf' = l * cDx cf. Hypothesis E3 : cDx2 cf' = l * l * cDx2 cf.
Hypothesis E4 : cX cf' = converted l (cX cf). Hypothesis E5 : cTDom cf' = cTDom cf.
Hypothesis EV : evaluates (cPde cf) w k. Hypothesis EV' : evaluates (cPde cf') w' k'.
Hypothesis U : in_units l k k'.

Definition scaled_states (s s' : Fdm R) : Prop :=
  fTPrev s' = fTPrev s /\ fTCurr s' = fTCurr s /\ fSolved s' = fSolved s /\
  fOld s' = converted l (fOld s) /\ fNew s' = converted l (fNew s) /\
  (kind <> KExplicit -> length (fB s) = (n - 2)%nat /\ length (fB s') = (n - 2)%nat).

Lemma X_scale : forall j, el (cX cf') j = l * el (cX cf) j.
Proof. intros j. rewrite E4. apply el_converted. Qed.
Ltac flat := cbn [nsub nadd nmul ndiv nopp Rnum].
Ltac pull := change (@at_ R Rnum) with el; rewrite ?X_scale, ?E1, ?E2, ?E3;
  repeat match goal with |- context [?c k' ?t (l * ?x)] =>
    let H := fresh in pose proof (U t x) as H; destruct H as (? & ? & ? & ? & ? & ?);
    repeat match goal with Q : _ k' t (l * x) = _ |- _ => rewrite ?Q; clear Q end end.

Lemma ends_scale : forall s s', scaled_states s s' ->
  @left_value R Rnum cf' k' (@moved R Rnum cf' s') = l * @left_value R Rnum cf k (@moved R Rnum cf s) /\
  @right_value R Rnum cf' k' n (@moved R Rnum cf' s') = l * @right_value R Rnum cf k n (@moved R Rnum cf s).
Proof.
  intros s s' (TP & TC & _). unfold left_value, right_value, boundary_time. rewrite SC, SC'. unfold moved. cbn [fTPrev fTCurr]. rewrite TP, E1.
  destruct kind; cbn [scheme_of]; pull; split; reflexivity.
Qed.
Lemma old_scale : forall s s', scaled_states s s' -> forall j, el (fOld s') j = l * el (fOld s) j.
Proof. intros s s' (_ & _ & _ & O & _) j. rewrite O. apply el_converted. Qed.
Lemma explicit_scale : forall s s' j, scaled_states s s' -> @explicit_value R Rnum cf' k' s' j = l * @explicit_value R Rnum cf k s j.
Proof.
  intros s s' j RS. pose proof (old_scale _ _ RS) as O. destruct RS as (TP & _). unfold explicit_value. cbn zeta. rewrite TP.
  pull. rewrite !O. generalize (@nhalf R Rnum) as h; generalize (@n2 R Rnum) as two; intros. flat.
  match goal with |- ?A / (l * l * ?D) - _ = l * (?N / ?D - _) => replace A with (l * l * (l * N)) by ring end.
  rewrite ratio by nra. unfold Rdiv. ring.
Qed.
Lemma mat_table : forall (F : nat -> nat -> R) m i j, @mat R Rnum (map (fun i => map (F i) (seq 0 m)) (seq 0 m)) i j =
  if (Nat.ltb i m && Nat.ltb j m)%bool then F i j else 0.
Proof.
  intros F m i j. unfold mat. destruct (Nat.ltb_spec i m) as [I|I]; cbn [andb].
  - rewrite (nth_indep _ [] (map (F 0%nat) (seq 0 m))) by (rewrite map_length, seq_length; exact I).
    rewrite (map_nth (fun i => map (F i) (seq 0 m)) (seq 0 m) 0%nat i), seq_nth by exact I. destruct (Nat.ltb_spec j m) as [J|J].
    + apply at_map_seq. exact J.
    + unfold at_. apply nth_overflow. rewrite map_length, seq_length. exact J.
  - rewrite (nth_overflow _ []) by (rewrite map_length, seq_length; exact I). unfold at_. now destruct j.
Qed.
Lemma tri_scale : forall m a b g a' b' g' c, (forall j, a' j = c * a j) -> (forall j, b' j = c * b j) -> (forall j, g' j = c * g j) ->
  forall i j, @mat R Rnum (@tri R Rnum n m a' b' g') i j = c * @mat R Rnum (@tri R Rnum n m a b g) i j.
Proof.
  intros m a b g a' b' g' c HA HB HG i j. unfold tri. rewrite !(mat_table (fun i j => _)). rewrite HA, HB, HG. change (@n0 R Rnum) with 0.
  destruct (Nat.ltb i (n - 2) && Nat.ltb j (n - 2))%bool, (Nat.ltb i m), (Nat.eqb (j + 1) i), (Nat.eqb j i), (Nat.eqb j (i + 1)); ring.
Qed.
Lemma i_scale : forall t j, @i_al R Rnum cf' k' t j = l * l * @i_al R Rnum cf k t j /\ @i_be R Rnum cf' k' t j = l * l * @i_be R Rnum cf k t j /\
  @i_ga R Rnum cf' k' t j = l * l * @i_ga R Rnum cf k t j.
Proof. intros t j. unfold i_al, i_be, i_ga. pull. flat. repeat split; ring. Qed.
Lemma c_scale : forall t j, @c_al R Rnum cf' k' t j = l * l * @c_al R Rnum cf k t j /\ @c_be R Rnum cf' k' t j = l * l * @c_be R Rnum cf k t j /\
  @c_ga R Rnum cf' k' t j = l * l * @c_ga R Rnum cf k t j.
Proof. intros t j. unfold c_al, c_be, c_ga. pull. flat. repeat split; ring. Qed.
Lemma i_b_scale : forall s s' t j, scaled_states s s' -> @i_b R Rnum cf' k' n s' t j = l * l * l * @i_b R Rnum cf k n s t j.
Proof.
  intros s s' t j RS. pose proof (old_scale _ _ RS) as O. destruct (ends_scale _ _ RS) as [EL ER]. unfold i_b. cbn zeta.
  destruct (i_scale t j) as (-> & _ & ->). rewrite EL, ER. pull. rewrite O. flat. destruct (Nat.eqb j 1), (Nat.eqb j (n - 2)); ring.
Qed.
Lemma c_b_scale : forall s s' t j, scaled_states s s' -> @c_b R Rnum cf' k' n s' t j = l * l * l * @c_b R Rnum cf k n s t j.
Proof.
  intros s s' t j RS. pose proof (old_scale _ _ RS) as O. destruct (ends_scale _ _ RS) as [EL ER]. destruct RS as (TP & _). unfold c_b, c_b0. cbn zeta.
  destruct (c_scale t j) as (-> & _ & ->). rewrite EL, ER, TP. pull. rewrite !O. flat.
  destruct (Nat.eqb j 1), (Nat.eqb j (n - 2)), (Nat.ltb 1 j), (Nat.ltb j (n - 2)); ring.
Qed.
Lemma ends_list : forall s s' sol sol', scaled_states s s' -> sol' = converted l sol ->
  @with_ends R Rnum cf' k' n s' sol' = converted l (@with_ends R Rnum cf k n s sol).
Proof.
  intros s s' sol sol' RS E. destruct (ends_scale _ _ RS) as [EL ER]. unfold with_ends, converted at 1. rewrite map_map. apply map_ext. intros j.
  destruct (Nat.eqb j 0); [exact EL|]. destruct (Nat.eqb j (n - 1)); [exact ER|]. rewrite E. change (@at_ R Rnum) with el. apply el_converted.
Qed.
Lemma i_step : forall cf w k s, kind = KImplicit -> cScheme cf = scheme_of kind (Some ThomasAlgorithm) -> evaluates (cPde cf) w k -> sized cf s n ->
  let v := @with_ends R Rnum cf k n s (@tsol R Rnum (@i_matrix R Rnum cf k n s) (@i_rhs R Rnum cf k n s) (n - 2)) in
  time_step lu cf w s = (Ok tt, mkFdm v v (fTPrev s + cDt cf) (fTPrev s + cDt cf) (fSolved s) (fB s)).
Proof.
  clear - N4 MX. intros cf w k s KI SC EV SZ v. rewrite KI in SC. cbn [scheme_of] in SC.
  apply (@implicit_step R Rnum lu cf w k n EV s ThomasAlgorithm); auto; [lia| |].
  - cbn [matrix_solve]. apply thomas_tsol; try lia; [apply tri_square_of|]. unfold i_rhs. now rewrite map_length, seq_length.
  - unfold tsol. now rewrite map_length, seq_length.
Qed.
Lemma c_step : forall cf w k s, kind = KCrankNicolson -> cScheme cf = scheme_of kind (Some ThomasAlgorithm) -> evaluates (cPde cf) w k -> sized cf s n ->
  length (fB s) = (n - 2)%nat ->
  let v := @with_ends R Rnum cf k n s (@tsol R Rnum (@c_matrix R Rnum cf k n s (n - 2)) (@b_upto R Rnum cf k n s (n - 2)) (n - 2)) in
  time_step lu cf w s = (Ok tt, mkFdm v v (fTPrev s + cDt cf) (fTPrev s + cDt cf) (fSolved s) (@b_upto R Rnum cf k n s (n - 2))).
Proof.
  clear - N4 MX. intros cf w k s KI SC EV SZ LB v. rewrite KI in SC. cbn [scheme_of] in SC.
  apply (@cn_step R Rnum lu cf w k n EV s ThomasAlgorithm (fun m => @tsol R Rnum (@c_matrix R Rnum cf k n s m) (@b_upto R Rnum cf k n s m) (n - 2))); auto; [lia|].
  intros m M. split.
  - cbn [matrix_solve]. apply thomas_tsol; try lia; [apply tri_square_of|]. unfold b_upto. now rewrite map_length, seq_length.
  - unfold tsol. now rewrite map_length, seq_length.
Qed.
Lemma step_scale : forall s s', sized cf s n -> sized cf' s' n -> scaled_states s s' ->
  exists s1 s1', time_step lu cf w s = (Ok tt, s1) /\ time_step lu cf' w' s' = (Ok tt, s1') /\ scaled_states s1 s1'.
Proof.
  intros s s' SZ SZ' RS. pose proof RS as (TP & TC & SO & OL & NW & LB). assert (L2 : l * l <> 0) by nra.
  destruct kind eqn:KD; rewrite <- KD in *.
  - assert (SC1 : cScheme cf = EulerExplicit) by (rewrite SC, KD; reflexivity).
    assert (SC1' : cScheme cf' = EulerExplicit) by (rewrite SC', KD; reflexivity).
    eexists. eexists. split; [apply (@explicit_step R Rnum lu cf w k n EV s SC1 SZ); lia|].
    split; [apply (@explicit_step R Rnum lu cf' w' k' n EV' s' SC1' SZ'); lia|].
    assert (V : @explicit_new R Rnum cf' k' n s' = converted l (@explicit_new R Rnum cf k n s)).
    { unfold explicit_new, converted. rewrite map_map. apply map_ext. intros j. rewrite TP, (explicit_scale _ _ _ RS). pull.
      destruct (Nat.eqb j 0), (Nat.eqb j (n - 1)); reflexivity. }
    unfold scaled_states. cbn [fTPrev fTCurr fSolved fOld fNew fB]. rewrite TP, SO, E1. repeat split; auto; now rewrite KD in *.
  - eexists. eexists. split; [apply (i_step cf w k s KD SC EV SZ)|]. split; [apply (i_step cf' w' k' s' KD SC' EV' SZ')|].
    match goal with |- scaled_states (mkFdm ?a _ _ _ _ _) (mkFdm ?b _ _ _ _ _) => assert (V : b = converted l a) end.
    { apply (ends_list _ _ _ _ RS). apply (tsol_scale (l * l) l _ _ _ _ _ L2).
      - unfold i_matrix. cbn zeta. rewrite TP, E1. apply tri_scale; intros j; apply i_scale.
      - intros i I. unfold i_rhs. rewrite TP, E1, !el_map_seq by exact I. now apply i_b_scale. }
    unfold scaled_states. cbn [fTPrev fTCurr fSolved fOld fNew fB]. rewrite TP, SO, E1. repeat split; auto; apply LB; assumption.
  - destruct (LB ltac:(now rewrite KD)) as [LB1 LB2].
    eexists. eexists. split; [apply (c_step cf w k s KD SC EV SZ LB1)|]. split; [apply (c_step cf' w' k' s' KD SC' EV' SZ' LB2)|].
    match goal with |- scaled_states (mkFdm ?a _ _ _ _ _) (mkFdm ?b _ _ _ _ _) => assert (V : b = converted l a) end.
    { apply (ends_list _ _ _ _ RS). apply (tsol_scale (l * l) l _ _ _ _ _ L2).
      - unfold c_matrix. cbn zeta. rewrite TP, E1. apply tri_scale; intros j; apply c_scale.
      - intros i I. unfold b_upto. rewrite TP, E1, !el_map_seq by exact I. destruct (Nat.ltb_spec (0 + i) (n - 2)); [|lia]. now apply c_b_scale. }
    unfold scaled_states. cbn [fTPrev fTCurr fSolved fOld fNew fB]. rewrite TP, SO, E1. repeat split; auto; unfold b_upto; now rewrite map_length, seq_length.
Qed.
Lemma march_scale : forall fuel s s', sized cf s n -> sized cf' s' n -> scaled_states s s' ->
  match march lu cf w fuel s, march lu cf' w' fuel s' with
  | Some (Ok _, s1), Some (Ok _, s1') => scaled_states s1 s1'
  | None, None => True
  | _, _ => False
  end.
Proof.
  induction fuel as [|fuel IH]; intros s s' SZ SZ' RS; pose proof RS as (_ & TC & _); cbn [march]; rewrite E5, TC.
  - destruct (M_Num.nltb _ _); auto.
  - destruct (M_Num.nltb (fTCurr s) (cTDom cf)) eqn:LT; auto. destruct (step_scale s s' SZ SZ' RS) as (s1 & s1' & E & E' & R). rewrite E, E'.
    apply IH; [exact (sized_step _ _ _ _ _ _ _ _ SZ E)|exact (sized_step _ _ _ _ _ _ _ _ SZ' E')|exact R].
Qed.
End Steps.

(** ** Interpolation *)
Definition converted_price (l : R) (o : outcome R) : outcome R :=
  match o with Ok v => Ok (l * v) | Throw e => Throw e | UB => UB end.
Section Interp.
Variable l : R.
Hypothesis PL : 0 < l.
Lemma vget_converted : forall v i, vget (converted l v) i = converted_price l (vget v i).
Proof. intros v i. unfold vget, converted. destruct (i <? 0)%Z; [reflexivity|]. rewrite nth_error_map. now destruct (nth_error v (Z.to_nat i)). Qed.
Lemma vfront_converted : forall v, vfront (converted l v) = converted_price l (vfront v).
Proof. now intros [|x v]. Qed.
Lemma vback_converted : forall v, vback (converted l v) = converted_price l (vback v).
Proof. intros v. unfold vback, converted. rewrite <- map_rev. now destruct (rev v). Qed.
Lemma leb_scale : forall a b, Rle_bool (l * a) (l * b) = Rle_bool a b.
Proof. intros a b. destruct (Rle_bool_spec a b), (Rle_bool_spec (l * a) (l * b)); try reflexivity; nra. Qed.
Lemma ltb_scale : forall a b, Rlt_bool (l * a) (l * b) = Rlt_bool a b.
Proof. intros a b. destruct (Rlt_bool_spec a b), (Rlt_bool_spec (l * a) (l * b)); try reflexivity; nra. Qed.
Ltac gets := repeat match goal with |- context [vget (converted l ?v) ?i] => rewrite (vget_converted v i); destruct (vget v i); cbn [bind converted_price]; try reflexivity end.
Lemma line_scale : forall xs ys x k, line (converted l xs) (converted l ys) (l * x) k = converted_price l (line xs ys x k).
Proof.
  intros xs ys x k. unfold line. gets. f_equal. cbn [nadd nsub nmul ndiv Rnum].
  match goal with |- _ + (l * ?x - l * ?a) * (l * ?d - l * ?c) / (l * ?b - l * ?a) = _ =>
    replace ((l * x - l * a) * (l * d - l * c)) with (l * (l * ((x - a) * (d - c)))) by ring; replace (l * b - l * a) with (l * (b - a)) by ring end.
  rewrite ratio by lra. unfold Rdiv. ring.
Qed.
Lemma linear_loop_scale : forall xs ys x n i, linear_loop (converted l xs) (converted l ys) (l * x) n i = converted_price l (linear_loop xs ys x n i).
Proof.
  intros xs ys x. induction n as [|n IH]; intros i; cbn [linear_loop]; [reflexivity|]. gets. change (@nltb R Rnum) with Rlt_bool.
  rewrite ltb_scale. destruct (Rlt_bool _ _); [apply line_scale|apply IH].
Qed.
Lemma linear_scale : forall xs ys x, linear_interpolate (converted l xs) (converted l ys) (l * x) = converted_price l (linear_interpolate xs ys x).
Proof.
  intros xs ys x. unfold linear_interpolate. rewrite !vfront_converted, !vback_converted. destruct (vfront xs); cbn [bind converted_price]; try reflexivity.
  change (@nleb R Rnum) with Rle_bool. rewrite leb_scale. destruct (Rle_bool _ _); [reflexivity|].
  destruct (vback xs); cbn [bind converted_price]; try reflexivity. rewrite leb_scale. destruct (Rle_bool _ _); [reflexivity|].
  unfold converted at 3. rewrite map_length. apply linear_loop_scale.
Qed.
Lemma search_scale : forall xs x fuel lo hi, search fuel (converted l xs) (l * x) lo hi = search fuel xs x lo hi.
Proof.
  intros xs x. induction fuel as [|fuel IH]; intros lo hi; cbn [search]; [reflexivity|]. destruct (lo <=? hi)%Z; [|reflexivity].
  change (@nleb R Rnum) with Rle_bool. change (@nltb R Rnum) with Rlt_bool.
  rewrite vget_converted. destruct (vget xs _) as [xm|e|]; cbn [bind converted_price]; try reflexivity. rewrite leb_scale, ltb_scale.
  destruct (Rle_bool xm x).
  - rewrite vget_converted. destruct (vget xs _) as [x1|e|]; cbn [bind converted_price]; try reflexivity. rewrite leb_scale, !IH. reflexivity.
  - cbn [bind]. rewrite !IH. reflexivity.
Qed.
Lemma parabola_scale : forall xs ys x k, parabola (converted l xs) (converted l ys) (l * x) k = converted_price l (parabola xs ys x k).
Proof.
  intros xs ys x k. unfold parabola. gets. f_equal. cbn [nadd nsub nmul ndiv Rnum].
  assert (Q : forall a b c d u v w' z, (l * a - l * b) * (l * c - l * d) / ((l * u - l * v) * (l * w' - l * z)) = (a - b) * (c - d) / ((u - v) * (w' - z))).
  { intros e f c d u v w' z. rewrite <- (ratio (l * l) ((e - f) * (c - d)) ((u - v) * (w' - z))) by nra. f_equal; ring. }
  rewrite !Q. ring.
Qed.
Lemma quadratic_scale : forall xs ys x, quadratic_interpolate (converted l xs) (converted l ys) (l * x) = converted_price l (quadratic_interpolate xs ys x).
Proof.
  intros xs ys x. unfold quadratic_interpolate. rewrite !vfront_converted, !vback_converted. destruct (vfront xs); cbn [bind converted_price]; try reflexivity.
  change (@nleb R Rnum) with Rle_bool. rewrite leb_scale. destruct (Rle_bool _ _); [reflexivity|].
  destruct (vback xs); cbn [bind converted_price]; try reflexivity. rewrite leb_scale. destruct (Rle_bool _ _); [reflexivity|].
  unfold findInterval. rewrite search_scale. replace (length (converted l xs)) with (length xs) by (unfold converted; now rewrite map_length).
  destruct (search _ _ _ _ _); cbn [bind converted_price]; try reflexivity.
  destruct (_ || _)%bool; [apply line_scale|apply parabola_scale].
Qed.
End Interp.

(** ** C113 *)
(** Two solvers, as their constructors leave them, for the same contract in two units of
    currency: the second counts [l] for 1 of the first.  The domain of the second is the
    same one in its unit; equations and initial values are in the ratio of the units. *)
Definition same_contract (l : R) (kind : SchemeKind) (xDom : R) (J : Z) (tDom : R) (N : Z) (p p' : Pde R) (o o' : Option R)
    (cf cf' : Conf R) (s s' : Fdm R) : Prop :=
  exists ip mem mem' w0 w0',
    Fdm_ctor kind xDom J tDom N p o ip (Some ThomasAlgorithm) mem w0 = Ok (cf, s) /\
    Fdm_ctor kind (l * xDom) J tDom N p' o' ip (Some ThomasAlgorithm) mem' w0' = Ok (cf', s') /\
    (forall x v v', initialCondition p w0 x = Ok v -> initialCondition p' w0' (l * x) = Ok v' -> v' = l * v) /\
    match ip with Some (CustomInterpolation _) => False | _ => True end.

Lemma contract_states : forall l kind xDom J tDom N p p' o o' cf cf' s s', (4 <= J < ULONG_MOD)%Z ->
  same_contract l kind xDom J tDom N p p' o o' cf cf' s s' ->
  let n := Z.to_nat J in
  cScheme cf = scheme_of kind (Some ThomasAlgorithm) /\ cScheme cf' = scheme_of kind (Some ThomasAlgorithm) /\
  cDt cf' = cDt cf /\ cDx cf' = l * cDx cf /\ cDx2 cf' = l * l * cDx2 cf /\ cX cf' = converted l (cX cf) /\ cTDom cf' = cTDom cf /\
  cPde cf = p /\ cPde cf' = p' /\ cOption cf = o /\ cOption cf' = o' /\ cInterp cf' = cInterp cf /\
  (cInterp cf = LinearInterpolation \/ cInterp cf = QuadraticInterpolation) /\
  sized cf s n /\ sized cf' s' n /\ scaled_states kind n l s s' /\ fSolved s = false /\ fSolved s' = false.
Proof.
  intros l kind xDom J tDom N p p' o o' cf cf' s s' HJ (ip & mem & mem' & w0 & w0' & E & E' & IC & BI) n. assert (J0 : (0 <= J)%Z) by lia.
  pose proof (ctor_sized _ _ _ _ _ _ _ _ _ _ _ _ _ _ _ (conj J0 (proj2 HJ)) E) as SZ.
  pose proof (ctor_sized _ _ _ _ _ _ _ _ _ _ _ _ _ _ _ (conj J0 (proj2 HJ)) E') as SZ'.
  destruct (ctor_ok _ _ _ _ _ _ _ _ _ _ _ _ _ _ _ J0 E) as (SC & XD & EJ & TD & EN & PD & OP & IP & DX & DX2 & DT & X & LO & IV & FN & TP & TC & SO & LB).
  destruct (ctor_ok _ _ _ _ _ _ _ _ _ _ _ _ _ _ _ J0 E') as (SC' & XD' & EJ' & TD' & EN' & PD' & OP' & IP' & DX' & DX2' & DT' & X' & LO' & IV' & FN' & TP' & TC' & SO' & LB').
  assert (Q2 : cDx cf' = l * cDx cf) by (rewrite DX, DX'; cbn [ndiv Rnum]; unfold Rdiv; ring).
  assert (Q4 : cX cf' = converted l (cX cf)).
  { rewrite X, X', Q2. unfold converted. rewrite map_map. apply map_ext. intros i. cbn [nmul Rnum]. ring. }
  split; [exact SC|]. split; [exact SC'|]. split; [congruence|]. split; [exact Q2|]. split; [rewrite DX2, DX2', Q2; cbn [nmul Rnum]; ring|].
  split; [exact Q4|]. split; [congruence|]. split; [exact PD|]. split; [exact PD'|]. split; [exact OP|]. split; [exact OP'|]. split; [congruence|].
  split; [rewrite IP; destruct ip as [[| |]|]; auto; easy|]. split; [exact SZ|]. split; [exact SZ'|]. split; [|split; assumption].
  split; [congruence|]. split; [congruence|]. split; [congruence|]. split; [|split].
  - apply converted_eq; [now rewrite LO, LO'|]. intros j JJ. rewrite LO in JJ. specialize (IV j JJ). specialize (IV' j JJ).
    change (initialCondition p' w0' (el (cX cf') j) = Ok (el (fOld s') j)) in IV'. rewrite Q4, el_converted in IV'. exact (IC _ _ _ IV IV').
  - rewrite FN, FN'. apply converted_eq; [reflexivity|]. intros j _. unfold el. change (@n0 R Rnum) with 0. rewrite nth_repeat. ring.
  - intros NE. split; [now apply LB|now apply LB'].
Qed.

Theorem C113_layers : forall lu l kind xDom J tDom N p p' o o' cf cf' s s' w w' k k' fuel,
  0 < l -> (4 <= J < ULONG_MOD)%Z -> (J - 4 <= INT_MAX)%Z ->
  same_contract l kind xDom J tDom N p p' o o' cf cf' s s' ->
  evaluates p w k -> evaluates p' w' k' -> in_units l k k' ->
  match solve lu cf w fuel s, solve lu cf' w' fuel s' with
  | Some (Ok v, _), Some (Ok v', _) => v' = converted l v
  | None, None => True
  | _, _ => False
  end.
Proof.
  intros lu l kind xDom J tDom N p p' o o' cf cf' s s' w w' k k' fuel PL HJ MX SAME EV EV' U.
  destruct (contract_states _ _ _ _ _ _ _ _ _ _ _ _ _ _ HJ SAME) as (SC & SC' & E1 & E2 & E3 & E4 & E5 & PD & PD' & _ & _ & _ & _ & SZ & SZ' & RS & _).
  rewrite <- PD in EV. rewrite <- PD' in EV'.
  assert (M := march_scale lu kind (Z.to_nat J) l PL ltac:(lia) ltac:(lia) cf cf' w w' k k' SC SC' E1 E2 E3 E4 E5 EV EV' U fuel s s' SZ SZ' RS).
  unfold solve. destruct (march lu cf w fuel s) as [[[[]|e|] s1]|]; destruct (march lu cf' w' fuel s') as [[[[]|e'|] s1']|]; try easy.
  destruct M as (_ & _ & _ & _ & NW & _). exact NW.
Qed.
Print Assumptions C113_layers.

(** The price read off the grid, at a spot in the same ratio, by either interpolation. *)
Theorem C113_price : forall lu l kind xDom J tDom N p p' o o' cf cf' s s' w w' k k' fuel d d',
  0 < l -> (4 <= J < ULONG_MOD)%Z -> (J - 4 <= INT_MAX)%Z ->
  same_contract l kind xDom J tDom N p p' o o' cf cf' s s' ->
  evaluates p w k -> evaluates p' w' k' -> in_units l k k' ->
  read (optTicker o) w = Ok d -> read (optTicker o') w' = Ok d' -> S_ d' = l * S_ d ->
  match calculatePrice lu cf w fuel s, calculatePrice lu cf' w' fuel s' with
  | Some (v, _), Some (v', _) => v' = converted_price l v
  | None, None => True
  | _, _ => False
  end.
Proof.
  intros lu l kind xDom J tDom N p p' o o' cf cf' s s' w w' k k' fuel d d' PL HJ MX SAME EV EV' U RD RD' SP.
  destruct (contract_states _ _ _ _ _ _ _ _ _ _ _ _ _ _ HJ SAME) as (SC & SC' & E1 & E2 & E3 & E4 & E5 & PD & PD' & OP & OP' & IP & BI & SZ & SZ' & RS & SO & SO').
  rewrite <- PD in EV. rewrite <- PD' in EV'.
  assert (M := march_scale lu kind (Z.to_nat J) l PL ltac:(lia) ltac:(lia) cf cf' w w' k k' SC SC' E1 E2 E3 E4 E5 EV EV' U fuel s s' SZ SZ' RS).
  unfold calculatePrice. rewrite SO, SO'. unfold solve.
  destruct (march lu cf w fuel s) as [[[[]|e|] s1]|]; destruct (march lu cf' w' fuel s') as [[[[]|e'|] s1']|]; try easy.
  destruct M as (_ & _ & _ & _ & NW & _). cbn [fbind flift fret setSolved fget]. unfold read_price, fbind, flift, fget, setSolved, fret. cbn.
  rewrite OP, OP'. change (stock_of o w) with (read (optTicker o) w). change (stock_of o' w') with (read (optTicker o') w'). rewrite RD, RD'. cbn.
  rewrite NW, E4, IP. unfold getPrice. rewrite SP. destruct BI as [-> | ->]; [now apply linear_scale|now apply quadratic_scale].
Qed.
Print Assumptions C113_price.

(** Vanilla options under the Black-Scholes equation: the strike and the spot are quoted in
    the new unit; volatility, rate, dividend yield and dates do not change. *)
Theorem C113_vanilla : forall lu l kind xDom J tDom N ty K (o o' : Option R) ip mem mem' w0 w0' cf cf' s s' w w' d d' fuel,
  0 < l -> (4 <= J < ULONG_MOD)%Z -> (J - 4 <= INT_MAX)%Z -> ty = Call \/ ty = Put ->
  optPayoff o = PVanilla ty K -> optPayoff o' = PVanilla ty (l * K) -> optT o' = optT o ->
  Fdm_ctor kind xDom J tDom N (BlackScholesPDE o) o ip (Some ThomasAlgorithm) mem w0 = Ok (cf, s) ->
  Fdm_ctor kind (l * xDom) J tDom N (BlackScholesPDE o') o' ip (Some ThomasAlgorithm) mem' w0' = Ok (cf', s') ->
  match ip with Some (CustomInterpolation _) => False | _ => True end ->
  read (optTicker o) w = Ok d -> read (optTicker o') w' = Ok d' ->
  S_ d' = l * S_ d -> sigma_ d' = sigma_ d -> c_ d' = c_ d -> mR w' = mR w ->
  match calculatePrice lu cf w fuel s, calculatePrice lu cf' w' fuel s' with
  | Some (v, _), Some (v', _) => v' = converted_price l v
  | None, None => True
  | _, _ => False
  end.
Proof.
  intros lu l kind xDom J tDom N ty K o o' ip mem mem' w0 w0' cf cf' s s' w w' d d' fuel PL HJ MX TY PO PO' OT E E' BI RD RD' SP SG CC RR.
  apply (C113_price lu l kind xDom J tDom N (BlackScholesPDE o) (BlackScholesPDE o') o o' cf cf' s s' w w' _ _ fuel d d' PL HJ MX) with (3 := bs_evaluates o' w' d' ty (l * K) RD' PO' TY) (2 := bs_evaluates o w d ty K RD PO TY); auto.
  - exists ip, mem, mem', w0, w0'. split; [exact E|]. split; [exact E'|]. split; [|exact BI]. intros x v v' I I'.
    apply (vanilla_initial o w0 ty K) in I; auto. apply (vanilla_initial o' w0' ty (l * K)) in I'; auto. subst.
    assert (RM : forall a b, Rmax (l * a - l * b) 0 = l * Rmax (a - b) 0).
    { intros a b. unfold Rmax. destruct (Rle_dec (l * a - l * b) 0), (Rle_dec (a - b) 0); nra. }
    destruct TY as [-> | ->]; apply RM.
  - intros t x. cbn [bs_coefs kd kc kr kf kl kg]. rewrite SG, RR, OT. unfold dividend. rewrite CC. destruct TY as [-> | ->]; repeat split; try ring; field.
Qed.
Print Assumptions C113_vanilla.

(** A put struck at 3/2 on the nodes 0, 1, 2, 3, one explicit step, in dollars and in
    cents: 3/4 of a dollar, 75 cents.  (The warning of the explicit solver depends on the
    unit all the same: C110_false_alarm.) *)
Example C113_ex : forall lu mem, exists cf s s1 cf' s' s1',
  let o := o_bs Put (3 / 2) 1 in let o' := o_bs Put (100 * (3 / 2)) 1 in
  let w := w_bs 1 1 0 in let w' := w_bs (100 * 1) 1 0 in
  Fdm_ctor KExplicit 3 4 1 2 (BlackScholesPDE o) o None (Some ThomasAlgorithm) mem w = Ok (cf, s) /\
  Fdm_ctor KExplicit (100 * 3) 4 1 2 (BlackScholesPDE o') o' None (Some ThomasAlgorithm) mem w' = Ok (cf', s') /\
  calculatePrice lu cf w 1 s = Some (Ok (3 / 4), s1) /\ calculatePrice lu cf' w' 1 s' = Some (Ok 75, s1').
Proof.
  intros lu mem. set (o := o_bs Put (3 / 2) 1). set (o' := o_bs Put (100 * (3 / 2)) 1). set (w := w_bs 1 1 0). set (w' := w_bs (100 * 1) 1 0).
  destruct (ctor_total _ _ KExplicit 3 4 1 2 (BlackScholesPDE o) o None (Some ThomasAlgorithm) mem w (initial_total Put (3 / 2) 1 w) ltac:(lia)) as (cf & s & E).
  destruct (ctor_total _ _ KExplicit (100 * 3) 4 1 2 (BlackScholesPDE o') o' None (Some ThomasAlgorithm) mem w' (initial_total Put (100 * (3 / 2)) 1 w') ltac:(lia)) as (cf' & s' & E').
  assert (HJ : (2 <= 4 < ULONG_MOD)%Z) by (unfold ULONG_MOD; lia).
  assert (HN : (2 <= 2 < ULONG_MOD)%Z) by (unfold ULONG_MOD; lia).
  assert (H3 : 0 < 3) by lra. assert (H1 : 0 < 1) by lra.
  assert (RD : read (optTicker o) w = Ok (mkStock 1 1 None)) by reflexivity.
  assert (RD' : read (optTicker o') w' = Ok (mkStock (100 * 1) 1 None)) by reflexivity.
  pose proof (bs_evaluates o w _ Put (3 / 2) RD eq_refl (or_intror eq_refl)) as EV.
  destruct (C68_run lu _ _ _ _ _ _ _ _ _ _ _ _ w _ HJ HN H3 H1 E EV) as (v & s1 & SO & LY).
  destruct (C66_grid _ _ _ _ _ _ _ _ _ _ _ _ _ HJ H3 E) as (_ & X0 & _ & _ & _ & _ & IV).
  pose proof (grid_el _ _ _ _ _ _ _ _ _ _ _ _ _ HJ E) as GE.
  change (Z.to_nat (2 - 1)) with 1%nat in *. change (Z.to_nat 4) with 4%nat in *.
  assert (X1 : el (cX cf) 1 = 1) by (rewrite GE by lia; cbn; field).
  assert (X2 : el (cX cf) 2 = 2) by (rewrite GE by lia; cbn; field).
  assert (O : forall j, (j < 4)%nat -> el (fOld s) j = Rmax (3 / 2 - el (cX cf) j) 0).
  { intros j J. specialize (IV j J). apply (vanilla_initial o w Put (3 / 2)) in IV; auto. }
  assert (O0 : el (fOld s) 0 = 3 / 2) by (rewrite O, X0, Rmax_left by (lia || lra); lra).
  assert (O1 : el (fOld s) 1 = 1 / 2) by (rewrite O, X1, Rmax_left by (lia || lra); lra).
  assert (O2 : el (fOld s) 2 = 0) by (rewrite O, X2, Rmax_right by (lia || lra); lra).
  assert (V1 : el v 1 = 3 / 4).
  { inversion LY as [|m u v' LU LK A1 A2]. subst m v'. inversion LU. subst u.
    destruct LK as (_ & _ & _ & EQ). specialize (EQ 1%nat ltac:(cbn; lia)). unfold explicit_eq, space_at, space in EQ.
    cbn [Nat.sub Nat.add] in EQ. rewrite O0, O1, O2, X1 in EQ. cbn [kd kc kr kf bs_coefs sigma_ c_ dividend] in EQ. change (mR w) with 0 in EQ.
    field_simplify in EQ. lra. }
  destruct (C74_node_price lu KExplicit 3 4 1 2 _ o None _ mem w cf s ltac:(unfold UINT_MOD; lia) H3 (or_introl eq_refl) E w 1 v s1 (SO 1%nat ltac:(lia))) as [_ P].
  assert (J0 : (0 <= 4)%Z) by lia.
  destruct (ctor_ok _ _ _ _ _ _ _ _ _ _ _ _ _ _ _ J0 E) as (_ & _ & _ & _ & _ & _ & OP & _ & _ & _ & _ & _ & _ & _ & _ & _ & _ & FS & _).
  assert (PR : calculatePrice lu cf w 1 s = Some (Ok (3 / 4), s1)).
  { rewrite (first_price _ _ _ _ _ _ _ _ _ FS (SO 1%nat ltac:(lia))), <- V1. apply (P w 1%nat (mkStock 1 1 None) 1%nat); auto. cbn; lia. }
  pose proof (C113_vanilla lu 100 KExplicit 3 4 1 2 Put (3 / 2) o o' None mem mem w w' cf cf' s s' w w' _ _ 1%nat ltac:(lra) ltac:(unfold ULONG_MOD; lia) ltac:(unfold INT_MAX; lia)
    (or_intror eq_refl) eq_refl eq_refl eq_refl E E' I RD RD' eq_refl eq_refl eq_refl eq_refl) as H.
  rewrite PR in H. destruct (calculatePrice lu cf' w' 1 s') as [[p1 s1']|] eqn:PR'; [|easy].
  exists cf, s, s1, cf', s', s1'. repeat split; auto. rewrite PR', H. cbn [converted_price]. do 3 f_equal. lra.
Qed.
