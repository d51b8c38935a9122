(** Lemmas on the finite-difference solvers, for any number type. *)
From Coq Require Import String List ZArith Bool Lia Reals Lra.
From Verif Require Import M_Num M_Outcome M_Dict M_Stock M_Market M_Payoff M_Option M_Numeric M_Fdm S_Market S_Model S_Fdm.
From Verif Require Import L_Dict L_Numeric.
Import ListNotations.

Section Lemmas.
Context {T : Type} {num : Num T}.

Definition upd (s : Fdm T) (v : list T) : Fdm T :=
  mkFdm v (fNew s) (fTPrev s) (fTCurr s) (fSolved s) (fB s).
Definition updNew (s : Fdm T) (v : list T) : Fdm T :=
  mkFdm (fOld s) v (fTPrev s) (fTCurr s) (fSolved s) (fB s).
Definition at_ (v : list T) (j : nat) : T := nth j v n0.

Lemma updNew_same : forall s, updNew s (fNew s) = s.
Proof. now destruct s. Qed.

Lemma bind_lift : forall A B (a : A) (f : A -> FM B) (s : Fdm T), fbind (flift (Ok a)) f s = f a s.
Proof. reflexivity. Qed.

Lemma vget_at : forall (v : list T) j, (j < length v)%nat -> vget v (Z.of_nat j) = Ok (at_ v j).
Proof. intros v j H. rewrite vget_nat. now rewrite (nth_error_nth' v n0 H). Qed.

Lemma writeNew_ok : forall j x s, (j < length (fNew s))%nat ->
  writeNew (Z.of_nat j) x s = (Ok tt, updNew s (lset j x (fNew s))).
Proof.
  intros j x s H. unfold writeNew, fbind, fget, flift, vput. rewrite vget_at by easy. cbn [bind].
  rewrite Nat2Z.id. reflexivity.
Qed.

Lemma at_lset : forall j k x (v : list T), (j < length v)%nat -> at_ (lset j x v) k = if Nat.eqb j k then x else at_ v k.
Proof.
  intros j k x v H. unfold at_. destruct (Nat.eqb_spec j k) as [<-|N].
  - apply nth_error_nth. now apply nth_lset_same.
  - destruct (lt_dec k (length v)) as [L|L].
    + apply nth_error_nth. rewrite nth_lset_other by easy. now apply nth_error_nth'.
    + rewrite !nth_overflow; rewrite ?lset_length; auto; lia.
Qed.

Lemma list_at : forall (u v : list T), length u = length v -> (forall k, (k < length u)%nat -> at_ u k = at_ v k) -> u = v.
Proof. intros u v L H. apply (nth_ext u v n0 n0); auto. Qed.

Lemma at_map_seq : forall (g : nat -> T) n k, (k < n)%nat -> at_ (map g (seq 0 n)) k = g k.
Proof.
  intros g n k H. unfold at_. rewrite (nth_indep _ n0 (g 0%nat)) by (rewrite map_length, seq_length; lia).
  rewrite map_nth, seq_nth by lia. reflexivity.
Qed.

(** A loop over the nodes that fills newPrices. *)
Lemma floop_fill : forall n i s body (g : nat -> T),
  (forall k v, (i <= k < i + n)%nat -> length v = length (fNew s) ->
     body (Z.of_nat k) (updNew s v) = writeNew (Z.of_nat k) (g k) (updNew s v)) ->
  (i + n <= length (fNew s))%nat ->
  exists v, floop n (Z.of_nat i) body s = (Ok tt, updNew s v) /\ length v = length (fNew s) /\
    forall k, at_ v k = if (Nat.leb i k && Nat.ltb k (i + n))%bool then g k else at_ (fNew s) k.
Proof.
  induction n as [|n IH]; intros i s body g H L; cbn [floop].
  - exists (fNew s). rewrite updNew_same. split; [easy|]. split; [easy|]. intros k.
    destruct (Nat.leb_spec i k), (Nat.ltb_spec k (i + 0)); cbn [andb]; auto. lia.
  - assert (B : body (Z.of_nat i) s = (Ok tt, updNew s (lset i (g i) (fNew s)))).
    { pose proof (H i (fNew s) ltac:(lia) eq_refl) as B. rewrite updNew_same in B. rewrite B. now apply writeNew_ok; lia. }
    unfold fbind. rewrite B.
    destruct (IH (Datatypes.S i) (updNew s (lset i (g i) (fNew s))) body g) as (v & E & LV & V).
    { intros k v K LV. cbn [updNew fOld fNew fTPrev fTCurr fSolved fB] in *. rewrite lset_length in LV.
      apply (H k v); [lia|easy]. }
    { cbn [updNew fNew]. rewrite lset_length. lia. }
    exists v. replace (Z.of_nat i + 1)%Z with (Z.of_nat (Datatypes.S i)) by lia.
    cbn [updNew fOld fNew fTPrev fTCurr fSolved fB] in E, LV, V |- *. rewrite E.
    rewrite lset_length in LV. split; [easy|]. split; [easy|].
    intros k. rewrite V, at_lset by lia.
    destruct (Nat.leb_spec (Datatypes.S i) k), (Nat.ltb_spec k (Datatypes.S i + n)), (Nat.leb_spec i k),
      (Nat.ltb_spec k (i + Datatypes.S n)), (Nat.eqb_spec i k); cbn [andb]; subst; auto; lia.
Qed.

Lemma ulsub_small : forall a b, (0 <= b <= a)%Z -> (a < ULONG_MOD)%Z -> ulsub a b = (a - b)%Z.
Proof. intros a b H L. unfold ulsub. apply Z.mod_small. lia. Qed.

Variable lu : LuAlg T.
Variable cf : Conf T.
Variable w : Market T.
Variable k : Coefs T.
Variable n : nat.
Hypothesis EV : evaluates (cPde cf) w k.

Lemma inner_count : forall s, sized cf s n -> (2 <= n)%nat -> Z.to_nat (ulsub (cJ cf) 1 - 1) = (n - 2)%nat.
Proof. intros s (J & M & _) H. rewrite J, ulsub_small by lia. lia. Qed.

(** *** Boundary values *)
Definition left_value (s : Fdm T) : T := kl k (boundary_time cf s) (at_ (cX cf) 0).
Definition right_value (s : Fdm T) : T := kg k (boundary_time cf s) (at_ (cX cf) (n - 1)).

Lemma boundary_ok : forall s, sized cf s n -> (1 <= n)%nat ->
  calculateBoundaryConditions cf w s = (Ok tt, updNew s (lset (n - 1) (right_value s) (lset 0 (left_value s) (fNew s)))).
Proof.
  intros s (J & M & LX & LO & LN) H. unfold calculateBoundaryConditions.
  assert (F : vfront (cX cf) = Ok (at_ (cX cf) 0)).
  { unfold vfront, at_. destruct (cX cf); [cbn in LX; lia|easy]. }
  assert (B : vback (cX cf) = Ok (at_ (cX cf) (n - 1))).
  { destruct (vback_nth _ (cX cf)) as (x & E & B). { intros E. rewrite E in LX. cbn in LX. lia. }
    rewrite B. f_equal. symmetry. apply nth_error_nth. now rewrite LX in E. }
  unfold fbind at 1. unfold fget. unfold fbind at 1. unfold flift at 1. rewrite F.
  unfold fbind at 1. unfold flift at 1.
  destruct (EV (boundary_time cf s) (at_ (cX cf) 0)) as (_ & _ & _ & _ & -> & _).
  unfold fbind at 1. change 0%Z with (Z.of_nat 0) at 1. rewrite writeNew_ok by lia.
  unfold fbind at 1. unfold flift at 1. rewrite B. unfold fbind at 1. unfold flift.
  destruct (EV (boundary_time cf s) (at_ (cX cf) (n - 1))) as (_ & _ & _ & _ & _ & ->).
  replace (Z.of_nat (length (fNew s)) - 1)%Z with (Z.of_nat (n - 1)) by lia.
  rewrite writeNew_ok by (cbn [updNew fNew]; rewrite lset_length; lia). reflexivity.
Qed.

Definition moved (s : Fdm T) : Fdm T :=
  mkFdm (fOld s) (fNew s) (fTPrev s) (nadd (fTPrev s) (cDt cf)) (fSolved s) (fB s).
(** newPrices after the boundary values are set *)
Definition bounded_new (s : Fdm T) : list T := lset (n - 1) (right_value (moved s)) (lset 0 (left_value (moved s)) (fNew s)).

(** A time step is the inner domain between fixed actions. *)
Lemma step_inner : forall s, sized cf s n -> (1 <= n)%nat ->
  time_step lu cf w s =
  match calculateInnerDomain lu cf w (updNew (moved s) (bounded_new s)) with
  | (Ok _, s') => (Ok tt, mkFdm (fNew s') (fNew s') (fTCurr s') (fTCurr s') (fSolved s') (fB s'))
  | r => r
  end.
Proof.
  intros s SZ H. unfold time_step. unfold fbind at 1. unfold fget at 1. unfold fbind at 1. unfold setTCurr.
  unfold fbind at 1. fold (moved s).
  rewrite boundary_ok by (destruct SZ as (? & ? & ? & ? & ?); repeat split; auto).
  fold (bounded_new s). change (lset (n - 1) (right_value (moved s)) _) with (bounded_new s).
  unfold fbind at 1. destruct (calculateInnerDomain _ _ _ _) as [[[]|e|] s']; reflexivity.
Qed.

(** *** Explicit Euler *)
Definition explicit_value (s : Fdm T) (j : nat) : T :=
  let t := fTPrev s in
  let x := at_ (cX cf) j in
  (let dtSig := cDt cf * kd k t x in
   let dtSig2 := nhalf * cDt cf * cDx cf * kc k t x in
   ((dtSig - dtSig2) * at_ (fOld s) (j - 1) + (cDx2 cf - n2 * dtSig + cDt cf * cDx2 cf * kr k t x) * at_ (fOld s) j
    + (dtSig + dtSig2) * at_ (fOld s) (j + 1)) / cDx2 cf - cDt cf * kf k t x)%num.
Definition explicit_new (s : Fdm T) : list T :=
  map (fun j => if Nat.eqb j 0 then kl k (fTPrev s) (at_ (cX cf) 0)
                else if Nat.eqb j (n - 1) then kg k (fTPrev s) (at_ (cX cf) (n - 1))
                else explicit_value s j) (seq 0 n).

Lemma explicit_step : forall s, cScheme cf = EulerExplicit -> sized cf s n -> (2 <= n)%nat ->
  time_step lu cf w s =
  (Ok tt, mkFdm (explicit_new s) (explicit_new s) (nadd (fTPrev s) (cDt cf)) (nadd (fTPrev s) (cDt cf)) (fSolved s) (fB s)).
Proof.
  intros s SC SZ H. rewrite step_inner by (auto; lia). unfold calculateInnerDomain. rewrite SC. unfold for_inner.
  rewrite (inner_count s) by auto.
  pose proof SZ as (J & M & LX & LO & LN).
  assert (LB : length (bounded_new s) = n) by (unfold bounded_new; now rewrite !lset_length).
  destruct (floop_fill (n - 2) 1 (updNew (moved s) (bounded_new s)) (explicit_body cf w) (explicit_value s)) as (v & E & LV & V).
  - intros i v I LV. cbn [updNew moved fOld fNew fTPrev fTCurr fSolved fB] in *.
    destruct (EV (fTPrev s) (at_ (cX cf) i)) as (ED & EC & ER & EF & _).
    unfold explicit_body, fbind at 1, fget. cbn [updNew moved fOld fTPrev].
    rewrite vget_at, bind_lift by lia. cbn beta. rewrite ED, bind_lift. cbn beta. rewrite EC, bind_lift. cbn beta.
    rewrite ER, bind_lift. cbn beta. rewrite EF, bind_lift. cbn beta.
    replace (Z.of_nat i - 1)%Z with (Z.of_nat (i - 1)) by lia. replace (Z.of_nat i + 1)%Z with (Z.of_nat (i + 1)) by lia.
    rewrite !vget_at by lia. rewrite !bind_lift. reflexivity.
  - cbn [updNew fNew]. lia.
  - change (Z.of_nat 1) with 1%Z in E. rewrite E.
    cbn [updNew moved fOld fNew fTPrev fTCurr fSolved fB] in *.
    assert (EQ : v = explicit_new s); [|now rewrite EQ].
    apply list_at; [unfold explicit_new; rewrite map_length, seq_length; lia|]. intros i I.
    unfold explicit_new. rewrite at_map_seq by lia. rewrite V. unfold bounded_new.
    rewrite at_lset by (rewrite lset_length; lia). rewrite at_lset by lia.
    unfold left_value, right_value, boundary_time. rewrite SC. cbn [moved fTPrev].
    destruct (Nat.leb_spec 1 i), (Nat.ltb_spec i (1 + (n - 2))), (Nat.eqb_spec i 0), (Nat.eqb_spec i (n - 1)),
      (Nat.eqb_spec (n - 1) i), (Nat.eqb_spec 0 i); cbn [andb]; try lia; auto.
Qed.

(** *** The linear systems *)
(** The triplets of row j-1, and the matrix of the first m rows. *)
Definition trow (al be ga : nat -> T) (j : nat) : list (Z * Z * T) :=
  let z := Z.of_nat j in
  (if (1 <? z)%Z then [((z - 1)%Z, (z - 2)%Z, al j)] else [])
  ++ [((z - 1)%Z, (z - 1)%Z, be j)]
  ++ (if (z <? ulsub (cJ cf) 2)%Z then [((z - 1)%Z, z, ga j)] else []).
Definition tri (m : nat) (al be ga : nat -> T) : list (list T) :=
  map (fun i => map (fun j =>
    if Nat.ltb i m then
      if Nat.eqb (j + 1) i then al (i + 1)%nat else if Nat.eqb j i then be (i + 1)%nat
      else if Nat.eqb j (i + 1) then ga (i + 1)%nat else n0
    else n0) (seq 0 (n - 2))) (seq 0 (n - 2)).

Lemma filter_rows : forall (al be ga : nat -> T) i j m a, (a <= i + 1)%nat ->
  filter (fun t => (fst (fst t) =? Z.of_nat i)%Z && (snd (fst t) =? Z.of_nat j)%Z) (flat_map (trow al be ga) (seq a m)) =
  if Nat.ltb (i + 1) (a + m) then
    filter (fun t => (fst (fst t) =? Z.of_nat i)%Z && (snd (fst t) =? Z.of_nat j)%Z) (trow al be ga (i + 1))
  else [].
Proof.
  intros al be ga i j. induction m as [|m IH]; intros a H; cbn [seq flat_map].
  - destruct (Nat.ltb_spec (i + 1) (a + 0)); [lia|easy].
  - rewrite filter_app. destruct (Nat.eq_dec a (i + 1)) as [->|N].
    + destruct (Nat.ltb_spec (i + 1) (i + 1 + Datatypes.S m)); [|lia]. clear IH.
      replace (filter _ (flat_map _ _)) with (@nil (Z * Z * T)); [now rewrite app_nil_r|].
      symmetry. assert (B' : (i + 1 < Datatypes.S (i + 1))%nat) by lia. revert B'.
      generalize (Datatypes.S (i + 1)) as b. clear H H0.
      induction m as [|m IH]; intros b B; cbn [seq flat_map]; [easy|]. rewrite filter_app, IH by lia. rewrite app_nil_r.
      unfold trow. rewrite !filter_app. cbn [filter fst snd].
      destruct (Z.eqb_spec (Z.of_nat b - 1) (Z.of_nat i)); [lia|].
      destruct (Z.ltb_spec 1 (Z.of_nat b)), (Z.ltb_spec (Z.of_nat b) (ulsub (cJ cf) 2)); cbn [filter fst snd app andb];
        repeat match goal with |- context [(?x =? Z.of_nat i)%Z] => destruct (Z.eqb_spec x (Z.of_nat i)); [lia|] end; reflexivity.
    + rewrite IH by lia. replace (a + Datatypes.S m)%nat with (Datatypes.S a + m)%nat by lia.
      replace (filter _ (trow _ _ _ a)) with (@nil (Z * Z * T)); [easy|]. symmetry.
      unfold trow. rewrite !filter_app. cbn [filter fst snd].
      destruct (Z.eqb_spec (Z.of_nat a - 1) (Z.of_nat i)); [lia|].
      destruct (Z.ltb_spec 1 (Z.of_nat a)), (Z.ltb_spec (Z.of_nat a) (ulsub (cJ cf) 2)); cbn [filter fst snd app andb];
        repeat match goal with |- context [(?x =? Z.of_nat i)%Z] => destruct (Z.eqb_spec x (Z.of_nat i)); [lia|] end; reflexivity.
Qed.

Lemma from_triplets_tri : forall al be ga m, cJ cf = Z.of_nat n -> (Z.of_nat n < ULONG_MOD)%Z -> (2 <= n)%nat ->
  from_triplets (n - 2) (flat_map (trow al be ga) (seq 1 m)) = tri m al be ga.
Proof.
  intros al be ga m J M H. unfold from_triplets, tri. apply map_ext_in. intros i I. apply in_seq in I.
  apply map_ext_in. intros j JJ. apply in_seq in JJ. rewrite filter_rows by lia.
  destruct (Nat.ltb_spec (i + 1) (1 + m)), (Nat.ltb_spec i m); try lia; [|easy].
  unfold trow. rewrite !filter_app, J, ulsub_small by lia.
  destruct (Z.ltb_spec 1 (Z.of_nat (i + 1))), (Z.ltb_spec (Z.of_nat (i + 1)) (Z.of_nat n - 2));
    cbn [filter fst snd app];
    repeat match goal with |- context [(?x =? ?y)%Z] => destruct (Z.eqb_spec x y); try lia end;
    repeat match goal with |- context [Nat.eqb ?x ?y] => destruct (Nat.eqb_spec x y); try lia end;
    cbn [andb app map fold_left snd]; reflexivity.
Qed.

(** Copying the solution of a system between the boundary values. *)
Definition copied (v sol : list T) : list T :=
  map (fun j => if Nat.eqb j 0 then at_ v 0 else if Nat.eqb j (n - 1) then at_ v (n - 1) else at_ sol (j - 1)) (seq 0 n).

Lemma copy_ok : forall s sol, sized cf s n -> (2 <= n)%nat -> length sol = (n - 2)%nat ->
  for_inner (cJ cf) (copy_body sol) s = (Ok tt, updNew s (copied (fNew s) sol)).
Proof.
  intros s sol SZ H LS. unfold for_inner. rewrite (inner_count s) by auto. pose proof SZ as (J & M & LX & LO & LN).
  destruct (floop_fill (n - 2) 1 s (copy_body sol) (fun j => at_ sol (j - 1))) as (v & E & LV & V).
  - intros i v I LV. unfold copy_body. replace (Z.of_nat i - 1)%Z with (Z.of_nat (i - 1)) by lia.
    rewrite vget_at, bind_lift by lia. reflexivity.
  - lia.
  - change (Z.of_nat 1) with 1%Z in E. rewrite E.
    assert (EQ : v = copied (fNew s) sol); [|now rewrite EQ].
    apply list_at; [unfold copied; rewrite map_length, seq_length; lia|]. intros i I.
    unfold copied. rewrite at_map_seq by lia. rewrite V.
    destruct (Nat.leb_spec 1 i), (Nat.ltb_spec i (1 + (n - 2))), (Nat.eqb_spec i 0), (Nat.eqb_spec i (n - 1)); cbn [andb];
      try lia; subst; auto.
Qed.

Lemma copied_again : forall v sol sol', (2 <= n)%nat -> copied (copied v sol') sol = copied v sol.
Proof.
  intros v sol sol' H. unfold copied. apply map_ext_in. intros j J. apply in_seq in J.
  rewrite !at_map_seq by lia. rewrite Nat.eqb_refl.
  destruct (Nat.eqb_spec j 0), (Nat.eqb_spec j (n - 1)), (Nat.eqb_spec (n - 1) 0); cbn; try lia; rewrite ?Nat.eqb_refl; auto.
Qed.

Lemma at_bounded : forall s j, sized cf s n -> (2 <= n)%nat -> (j < n)%nat -> at_ (bounded_new s) j =
  if Nat.eqb j 0 then left_value (moved s) else if Nat.eqb j (n - 1) then right_value (moved s) else at_ (fNew s) j.
Proof.
  intros s j (J & M & LX & LO & LN) H L. unfold bounded_new. rewrite at_lset by (rewrite lset_length; lia).
  rewrite at_lset by lia. destruct (Nat.eqb_spec (n - 1) j), (Nat.eqb_spec j 0), (Nat.eqb_spec j (n - 1)), (Nat.eqb_spec 0 j); try lia; auto.
Qed.

(** *** Implicit Euler *)
Definition i_al (t : T) (j : nat) : T :=
  (cDt cf * kd k t (at_ (cX cf) j) - nhalf * cDt cf * cDx cf * kc k t (at_ (cX cf) j))%num.
Definition i_be (t : T) (j : nat) : T :=
  (- cDx2 cf - n2 * (cDt cf * kd k t (at_ (cX cf) j)) + cDt cf * cDx2 cf * kr k t (at_ (cX cf) j))%num.
Definition i_ga (t : T) (j : nat) : T :=
  (cDt cf * kd k t (at_ (cX cf) j) + nhalf * cDt cf * cDx cf * kc k t (at_ (cX cf) j))%num.
Definition i_b (s : Fdm T) (t : T) (j : nat) : T :=
  let b := (cDx2 cf * (cDt cf * kf k t (at_ (cX cf) j) - at_ (fOld s) j))%num in
  let b := if Nat.eqb j 1 then (b - i_al t j * left_value (moved s))%num else b in
  if Nat.eqb j (n - 2) then (b - i_ga t j * right_value (moved s))%num else b.

Lemma implicit_rows_ok : forall s, sized cf s n -> (3 <= n)%nat ->
  let s1 := updNew (moved s) (bounded_new s) in
  let t := nadd (fTPrev s) (cDt cf) in
  forall m j, (1 <= j)%nat -> (j + m <= n - 1)%nat ->
  implicit_rows cf w s1 m (Z.of_nat j) =
  Ok (flat_map (trow (i_al t) (i_be t) (i_ga t)) (seq j m), map (i_b s t) (seq j m)).
Proof.
  intros s SZ H s1 t. pose proof SZ as (J & M & LX & LO & LN).
  assert (LB : length (bounded_new s) = n) by (unfold bounded_new; now rewrite !lset_length).
  induction m as [|m IH]; intros j L U; cbn [implicit_rows seq flat_map map]; [easy|].
  assert (E : implicit_row cf w s1 (Z.of_nat j) = Ok (trow (i_al t) (i_be t) (i_ga t) j, i_b s t j)).
  { unfold implicit_row. rewrite vget_at by lia. cbn [bind].
    change (fTCurr s1) with t. change (fOld s1) with (fOld s). change (fNew s1) with (bounded_new s).
    destruct (EV t (at_ (cX cf) j)) as (-> & -> & -> & -> & _). cbn [bind]. rewrite vget_at by lia. cbn [bind].
    rewrite J, !ulsub_small by lia.
    change 0%Z with (Z.of_nat 0). replace (Z.of_nat n - 1)%Z with (Z.of_nat (n - 1)) by lia. rewrite !vget_at by lia.
    rewrite !at_bounded by (auto; lia). rewrite Nat.eqb_refl.
    replace (Nat.eqb (n - 1) 0) with false by (symmetry; apply Nat.eqb_neq; lia). rewrite Nat.eqb_refl. cbn [Nat.eqb].
    unfold trow, i_b. rewrite J, ulsub_small by lia. cbn [bind].
    destruct (Z.eqb_spec (Z.of_nat j) 1), (Nat.eqb_spec j 1); try lia; cbn [bind];
      destruct (Z.eqb_spec (Z.of_nat j) (Z.of_nat n - 2)), (Nat.eqb_spec j (n - 2)); try lia; cbn [bind]; reflexivity. }
  rewrite E. cbn [bind]. replace (Z.of_nat j + 1)%Z with (Z.of_nat (Datatypes.S j)) by lia.
  rewrite IH by lia. reflexivity.
Qed.

(** A step of the implicit solver, given the answer of the matrix solver. *)
Definition i_matrix (s : Fdm T) : list (list T) :=
  let t := nadd (fTPrev s) (cDt cf) in tri (n - 2) (i_al t) (i_be t) (i_ga t).
Definition i_rhs (s : Fdm T) : list T := map (i_b s (nadd (fTPrev s) (cDt cf))) (seq 1 (n - 2)).
Definition with_ends (s : Fdm T) (sol : list T) : list T :=
  map (fun j => if Nat.eqb j 0 then left_value (moved s) else if Nat.eqb j (n - 1) then right_value (moved s)
                else at_ sol (j - 1)) (seq 0 n).

Lemma copied_bounded : forall s sol, sized cf s n -> (2 <= n)%nat -> copied (bounded_new s) sol = with_ends s sol.
Proof.
  intros s sol SZ H. unfold copied, with_ends. apply map_ext_in. intros j J. apply in_seq in J.
  rewrite !at_bounded by (auto; lia). rewrite !Nat.eqb_refl.
  replace (Nat.eqb (n - 1) 0) with false by (symmetry; apply Nat.eqb_neq; lia). reflexivity.
Qed.

Lemma implicit_step : forall s sv sol, cScheme cf = EulerImplicit sv -> sized cf s n -> (3 <= n)%nat ->
  matrix_solve lu sv (i_matrix s) (i_rhs s) = Ok sol -> length sol = (n - 2)%nat ->
  time_step lu cf w s =
  (Ok tt, mkFdm (with_ends s sol) (with_ends s sol) (nadd (fTPrev s) (cDt cf)) (nadd (fTPrev s) (cDt cf)) (fSolved s) (fB s)).
Proof.
  intros s sv sol SC SZ H E L. rewrite step_inner by (auto; lia). unfold calculateInnerDomain. rewrite SC.
  unfold implicit_inner. unfold fbind at 1. unfold fget. rewrite (inner_count s) by (auto; lia).
  pose proof SZ as (J & M & LX & LO & LN).
  assert (LB : length (bounded_new s) = n) by (unfold bounded_new; now rewrite !lset_length).
  change 1%Z with (Z.of_nat 1). rewrite implicit_rows_ok by (auto; lia). rewrite bind_lift. cbn [fst snd].
  replace (Z.to_nat (cJ cf - 2)) with (n - 2)%nat by lia.
  rewrite from_triplets_tri by (auto; lia). change (tri _ _ _ _) with (i_matrix s). change (map _ _) with (i_rhs s).
  rewrite E, bind_lift. rewrite copy_ok by (auto; try lia; repeat split; cbn [updNew moved fOld fNew]; auto; lia).
  change (fNew (updNew (moved s) (bounded_new s))) with (bounded_new s). rewrite copied_bounded by (auto; lia). reflexivity.
Qed.

Lemma implicit_step_throw : forall s sv e, cScheme cf = EulerImplicit sv -> sized cf s n -> (3 <= n)%nat ->
  matrix_solve lu sv (i_matrix s) (i_rhs s) = Throw e ->
  time_step lu cf w s = (Throw e, updNew (moved s) (bounded_new s)).
Proof.
  intros s sv e SC SZ H E. rewrite step_inner by (auto; lia). unfold calculateInnerDomain. rewrite SC.
  unfold implicit_inner. unfold fbind at 1. unfold fget. rewrite (inner_count s) by (auto; lia).
  pose proof SZ as (J & M & LX & LO & LN).
  change 1%Z with (Z.of_nat 1). rewrite implicit_rows_ok by (auto; lia). rewrite bind_lift. cbn [fst snd].
  replace (Z.to_nat (cJ cf - 2)) with (n - 2)%nat by lia.
  rewrite from_triplets_tri by (auto; lia). change (tri _ _ _ _) with (i_matrix s). change (map _ _) with (i_rhs s).
  rewrite E. reflexivity.
Qed.

(** *** Crank-Nicolson *)
Definition c_al (t : T) (j : nat) : T :=
  (nhalf * (cDt cf * kd k t (at_ (cX cf) j) - nhalf * cDt cf * cDx cf * kc k t (at_ (cX cf) j)))%num.
Definition c_be (t : T) (j : nat) : T :=
  (- cDx2 cf - cDt cf * kd k t (at_ (cX cf) j) + nhalf * cDt cf * cDx2 cf * kr k t (at_ (cX cf) j))%num.
Definition c_ga (t : T) (j : nat) : T :=
  (nhalf * (cDt cf * kd k t (at_ (cX cf) j) + nhalf * cDt cf * cDx cf * kc k t (at_ (cX cf) j)))%num.
Definition c_b0 (s : Fdm T) (t : T) (j : nat) : T :=
  let b := (nhalf * cDx2 cf * cDt cf * (kf k t (at_ (cX cf) j) + kf k (fTPrev s) (at_ (cX cf) j)))%num in
  let b := if Nat.eqb j 1 then (b - c_al t j * left_value (moved s))%num else b in
  if Nat.eqb j (n - 2) then (b - c_ga t j * right_value (moved s))%num else b.
Definition c_b (s : Fdm T) (t : T) (j : nat) : T :=
  let x := at_ (cX cf) j in
  let t0 := fTPrev s in
  let sg := (cDt cf * kd k t0 x)%num in
  let sg2 := (nhalf * cDt cf * cDx cf * kc k t0 x)%num in
  let b := (c_b0 s t j + (- cDx2 cf + sg - nhalf * cDt cf * cDx2 cf * kr k t0 x) * at_ (fOld s) j)%num in
  let b := if Nat.ltb 1 j then (b + (- nhalf * (sg - sg2)) * at_ (fOld s) (j - 1))%num else b in
  if Nat.ltb j (n - 2) then (b + (- nhalf * (sg + sg2)) * at_ (fOld s) (j + 1))%num else b.

(** The object inside the loop: some newPrices with the boundary values, some b. *)
Definition c_state (s : Fdm T) (sol b : list T) : Fdm T :=
  mkFdm (fOld s) (copied (bounded_new s) sol) (fTPrev s) (nadd (fTPrev s) (cDt cf)) (fSolved s) b.

Lemma cn_parts : forall s v b, sized cf s n -> (3 <= n)%nat -> forall j, (1 <= j <= n - 2)%nat ->
  let s1 := mkFdm (fOld s) v (fTPrev s) (nadd (fTPrev s) (cDt cf)) (fSolved s) b in
  let t := nadd (fTPrev s) (cDt cf) in
  length v = n -> at_ v 0 = left_value (moved s) -> at_ v (n - 1) = right_value (moved s) ->
  cn_implicit_part cf w s1 (at_ (cX cf) j) (Z.of_nat j) = Ok (trow (c_al t) (c_be t) (c_ga t) j, c_b0 s t j) /\
  cn_explicit_part cf w s1 (at_ (cX cf) j) (Z.of_nat j) (c_b0 s t j) = Ok (c_b s t j).
Proof.
  intros s v b SZ H j JJ s1 t LV V0 V1. pose proof SZ as (J & M & LX & LO & LN). split.
  - unfold cn_implicit_part. change (fTCurr s1) with t. change (fTPrev s1) with (fTPrev s). change (fNew s1) with v.
    destruct (EV t (at_ (cX cf) j)) as (-> & -> & -> & -> & _).
    destruct (EV (fTPrev s) (at_ (cX cf) j)) as (_ & _ & _ & -> & _). cbn [bind].
    rewrite J, !ulsub_small by lia.
    change 0%Z with (Z.of_nat 0). replace (Z.of_nat n - 1)%Z with (Z.of_nat (n - 1)) by lia. rewrite !vget_at by lia.
    rewrite V0, V1. unfold trow, c_b0. rewrite J, ulsub_small by lia. cbn [bind].
    destruct (Z.eqb_spec (Z.of_nat j) 1), (Nat.eqb_spec j 1); try lia; cbn [bind];
      destruct (Z.eqb_spec (Z.of_nat j) (Z.of_nat n - 2)), (Nat.eqb_spec j (n - 2)); try lia; cbn [bind]; reflexivity.
  - unfold cn_explicit_part. change (fTPrev s1) with (fTPrev s). change (fOld s1) with (fOld s).
    destruct (EV (fTPrev s) (at_ (cX cf) j)) as (-> & -> & -> & _ & _). cbn [bind].
    rewrite J, !ulsub_small by lia.
    replace (Z.of_nat j - 1)%Z with (Z.of_nat (j - 1)) by lia. replace (Z.of_nat j + 1)%Z with (Z.of_nat (j + 1)) by lia.
    rewrite !vget_at by lia. cbn [bind]. unfold c_b.
    destruct (Z.ltb_spec 1 (Z.of_nat j)), (Nat.ltb_spec 1 j); try lia; cbn [bind];
      destruct (Z.ltb_spec (Z.of_nat j) (Z.of_nat n - 2)), (Nat.ltb_spec j (n - 2)); try lia; cbn [bind]; reflexivity.
Qed.

(** b after the elements 0 .. m-1 have been written *)
Definition b_upto (s : Fdm T) (m : nat) : list T :=
  map (fun i => if Nat.ltb i m then c_b s (nadd (fTPrev s) (cDt cf)) (i + 1) else at_ (fB s) i) (seq 0 (n - 2)).
Definition c_matrix (s : Fdm T) (m : nat) : list (list T) :=
  let t := nadd (fTPrev s) (cDt cf) in tri m (c_al t) (c_be t) (c_ga t).

(** The loop over the nodes from j on, when every system gets an answer of the right size. *)
Lemma cn_loop_ok : forall s sv (sols : nat -> list T), sized cf s n -> (3 <= n)%nat ->
  length (fB s) = (n - 2)%nat ->
  (forall m, (1 <= m <= n - 2)%nat ->
     matrix_solve lu sv (c_matrix s m) (b_upto s m) = Ok (sols m) /\ length (sols m) = (n - 2)%nat) ->
  let t := nadd (fTPrev s) (cDt cf) in
  forall m j v, (1 <= j)%nat -> (j + m = n - 1)%nat ->
    length v = n -> at_ v 0 = left_value (moved s) -> at_ v (n - 1) = right_value (moved s) ->
    cn_loop lu cf w sv m (Z.of_nat j) (flat_map (trow (c_al t) (c_be t) (c_ga t)) (seq 1 (j - 1)))
      (mkFdm (fOld s) v (fTPrev s) t (fSolved s) (b_upto s (j - 1))) =
    (Ok tt, mkFdm (fOld s) (if Nat.eqb m 0 then v else copied v (sols (n - 2)%nat)) (fTPrev s) t (fSolved s) (b_upto s (n - 2))).
Proof.
  intros s sv sols SZ H LB SOL t. pose proof SZ as (J & M & LX & LO & LN).
  induction m as [|m IH]; intros j v L U LV V0 V1.
  - cbn [cn_loop Nat.eqb]. unfold fret. now replace (j - 1)%nat with (n - 2)%nat by lia.
  - cbn [cn_loop]. unfold fbind at 1. unfold fget at 1. rewrite vget_at, bind_lift by lia.
    destruct (cn_parts s v (b_upto s (j - 1)) SZ H j ltac:(lia) LV V0 V1) as [P1 P2].
    fold t in P1, P2. rewrite P1, bind_lift. cbn [fst snd]. rewrite P2, bind_lift.
    unfold fbind at 1.
    assert (W : writeB (Z.of_nat j - 1) (c_b s t j) (mkFdm (fOld s) v (fTPrev s) t (fSolved s) (b_upto s (j - 1))) =
      (Ok tt, mkFdm (fOld s) v (fTPrev s) t (fSolved s) (b_upto s j))).
    { unfold writeB, fbind, fget, flift, vput. cbn [fB].
      assert (LU : length (b_upto s (j - 1)) = (n - 2)%nat) by (unfold b_upto; now rewrite map_length, seq_length).
      replace (Z.of_nat j - 1)%Z with (Z.of_nat (j - 1)) by lia. rewrite vget_at by lia. cbn [bind]. rewrite Nat2Z.id.
      unfold setB. cbn [fOld fNew fTPrev fTCurr fSolved]. do 2 f_equal.
      apply list_at; [rewrite lset_length, LU; unfold b_upto; now rewrite map_length, seq_length|].
      rewrite lset_length, LU. intros i I. rewrite at_lset by lia. unfold b_upto. rewrite !at_map_seq by lia.
      destruct (Nat.eqb_spec (j - 1) i), (Nat.ltb_spec i (j - 1)), (Nat.ltb_spec i j); try lia; auto.
      subst i. fold t. f_equal. lia. }
    rewrite W. unfold fbind at 1. unfold fget at 1. cbn [fB].
    replace (flat_map _ (seq 1 (j - 1)) ++ trow _ _ _ j) with (flat_map (trow (c_al t) (c_be t) (c_ga t)) (seq 1 j)).
    2:{ replace (seq 1 j) with (seq 1 (j - 1) ++ [j]).
        - rewrite flat_map_app. cbn [flat_map]. now rewrite app_nil_r.
        - replace (seq 1 j) with (seq 1 (Datatypes.S (j - 1))) by (f_equal; lia). rewrite seq_S. do 2 f_equal. lia. }
    replace (Z.to_nat (cJ cf - 2)) with (n - 2)%nat by lia. rewrite from_triplets_tri by (auto; lia).
    change (tri j _ _ _) with (c_matrix s j). destruct (SOL j ltac:(lia)) as [E LS]. rewrite E, bind_lift.
    unfold fbind at 1. rewrite copy_ok by (auto; try lia; repeat split; cbn [fOld fNew]; auto; lia).
    unfold updNew. cbn [fOld fNew fTPrev fTCurr fSolved fB].
    replace (Z.of_nat j + 1)%Z with (Z.of_nat (Datatypes.S j)) by lia.
    specialize (IH (Datatypes.S j) (copied v (sols j))). replace (Datatypes.S j - 1)%nat with j in IH by lia.
    rewrite IH; clear IH.
    + cbn [Nat.eqb]. do 2 f_equal. destruct (Nat.eqb_spec m 0) as [->|N].
      * f_equal. f_equal. lia.
      * now rewrite copied_again by lia.
    + lia.
    + lia.
    + unfold copied. now rewrite map_length, seq_length.
    + unfold copied. rewrite at_map_seq by lia. now rewrite Nat.eqb_refl.
    + unfold copied. rewrite at_map_seq by lia. destruct (Nat.eqb_spec (n - 1) 0); [lia|]. now rewrite Nat.eqb_refl.
Qed.

Lemma cn_step : forall s sv (sols : nat -> list T), cScheme cf = CrankNicolson sv -> sized cf s n -> (3 <= n)%nat ->
  length (fB s) = (n - 2)%nat ->
  (forall m, (1 <= m <= n - 2)%nat ->
     matrix_solve lu sv (c_matrix s m) (b_upto s m) = Ok (sols m) /\ length (sols m) = (n - 2)%nat) ->
  let new := with_ends s (sols (n - 2)%nat) in
  time_step lu cf w s =
  (Ok tt, mkFdm new new (nadd (fTPrev s) (cDt cf)) (nadd (fTPrev s) (cDt cf)) (fSolved s) (b_upto s (n - 2))).
Proof.
  intros s sv sols SC SZ H LB SOL new. rewrite step_inner by (auto; lia). unfold calculateInnerDomain. rewrite SC.
  rewrite (inner_count s) by (auto; lia). pose proof SZ as (J & M & LX & LO & LN).
  assert (LBN : length (bounded_new s) = n) by (unfold bounded_new; now rewrite !lset_length).
  pose proof (cn_loop_ok s sv sols SZ H LB SOL (n - 2) 1 (bounded_new s)) as E.
  replace (updNew (moved s) (bounded_new s)) with
    (mkFdm (fOld s) (bounded_new s) (fTPrev s) (nadd (fTPrev s) (cDt cf)) (fSolved s) (b_upto s (1 - 1))).
  2:{ unfold updNew, moved. cbn [fOld fNew fTPrev fTCurr fSolved fB]. f_equal.
      apply list_at; unfold b_upto; rewrite map_length, seq_length; [easy|]. intros i I. rewrite at_map_seq by lia. reflexivity. }
  change (flat_map _ (seq 1 (1 - 1))) with (@nil (Z * Z * T)) in E. change (Z.of_nat 1) with 1%Z in E.
  rewrite E; clear E; try lia; auto.
  - cbn [fOld fNew fTPrev fTCurr fSolved fB]. destruct (Nat.eqb_spec (n - 2) 0); [lia|].
    rewrite copied_bounded by (auto; lia). reflexivity.
  - rewrite at_bounded by (auto; lia). reflexivity.
  - rewrite at_bounded by (auto; lia). destruct (Nat.eqb_spec (n - 1) 0); [lia|]. now rewrite Nat.eqb_refl.
Qed.

(** The first system is rejected. *)
Lemma cn_step_throw : forall s sv e, cScheme cf = CrankNicolson sv -> sized cf s n -> (3 <= n)%nat ->
  length (fB s) = (n - 2)%nat ->
  matrix_solve lu sv (c_matrix s 1) (b_upto s 1) = Throw e ->
  time_step lu cf w s =
  (Throw e, mkFdm (fOld s) (bounded_new s) (fTPrev s) (nadd (fTPrev s) (cDt cf)) (fSolved s) (b_upto s 1)).
Proof.
  intros s sv e SC SZ H LB E. rewrite step_inner by (auto; lia). unfold calculateInnerDomain. rewrite SC.
  rewrite (inner_count s) by (auto; lia). pose proof SZ as (J & M & LX & LO & LN).
  assert (LBN : length (bounded_new s) = n) by (unfold bounded_new; now rewrite !lset_length).
  replace (n - 2)%nat with (Datatypes.S (n - 3)) by lia. cbn [cn_loop]. unfold fbind at 1. unfold fget at 1.
  change 1%Z with (Z.of_nat 1). rewrite vget_at, bind_lift by lia.
  destruct (cn_parts s (bounded_new s) (fB s) SZ H 1%nat ltac:(lia) LBN) as [P1 P2].
  { rewrite at_bounded by (auto; lia). reflexivity. }
  { rewrite at_bounded by (auto; lia). destruct (Nat.eqb_spec (n - 1) 0); [lia|]. now rewrite Nat.eqb_refl. }
  change (updNew (moved s) (bounded_new s)) with
    (mkFdm (fOld s) (bounded_new s) (fTPrev s) (nadd (fTPrev s) (cDt cf)) (fSolved s) (fB s)).
  rewrite P1, bind_lift. cbn [fst snd]. rewrite P2, bind_lift. unfold fbind at 1.
  set (t := nadd (fTPrev s) (cDt cf)) in *.
  assert (W : writeB (Z.of_nat 1 - Z.of_nat 1) (c_b s t 1) (mkFdm (fOld s) (bounded_new s) (fTPrev s) t (fSolved s) (fB s)) =
      (Ok tt, mkFdm (fOld s) (bounded_new s) (fTPrev s) t (fSolved s) (b_upto s 1))).
  { unfold writeB, fbind, fget, flift, vput. cbn [fB].
    replace (Z.of_nat 1 - Z.of_nat 1)%Z with (Z.of_nat 0) by lia. rewrite vget_at by lia. cbn [bind]. rewrite Nat2Z.id.
    unfold setB. cbn [fOld fNew fTPrev fTCurr fSolved]. do 2 f_equal.
    apply list_at; [rewrite lset_length; unfold b_upto; now rewrite map_length, seq_length|].
    rewrite lset_length. intros i I. rewrite at_lset by lia. unfold b_upto. rewrite !at_map_seq by lia.
    destruct (Nat.eqb_spec 0 i), (Nat.ltb_spec i 1); try lia; auto. now subst i. }
  rewrite W. unfold fbind at 1. unfold fget at 1. cbn [fB app].
  replace (Z.to_nat (cJ cf - 2)) with (n - 2)%nat by lia.
  replace (trow _ _ _ 1) with (flat_map (trow (c_al t) (c_be t) (c_ga t)) (seq 1 1)) by (cbn [seq flat_map]; now rewrite app_nil_r).
  rewrite from_triplets_tri by (auto; lia). change (tri 1 _ _ _) with (c_matrix s 1). rewrite E. reflexivity.
Qed.

End Lemmas.


(** ** The Black-Scholes equation *)
Lemma bs_total : forall T (num : Num T) (o : Option T) w d K,
  read (optTicker o) w = Ok d -> singleStrike (optPayoff o) = Some K ->
  exists k, evaluates (BlackScholesPDE o) w k.
Proof.
  intros T num o w d K RD SS.
  assert (SS' : singleStrike (payoff_clone (optPayoff o)) = Some K) by (destruct (optPayoff o); exact SS).
  exists (mkCoefs (fun t x => (nhalf * getSigma d * getSigma d * x * x)%num)
    (fun t x => ((getR w - match getCoupon d with Some c => c | None => n0 end) * x)%num)
    (fun t x => (- getR w)%num) (fun t x => n0)
    (fun t x => if PayoffType_eqb (getPayoffType (optPayoff o)) Call then n0 else K)
    (fun t x => if PayoffType_eqb (getPayoffType (optPayoff o)) Call then (x - K * nexp (- getR w * (optT o - t)))%num else n0)).
  intros t x. cbn [BlackScholesPDE diffusion convection reaction rightHandSide boundaryLeft boundaryRight kd kc kr kf kl kg].
  unfold bs_diffusion, bs_convection, bs_reaction, bs_rightHandSide, bs_boundaryLeft, bs_boundaryRight.
  change (stock_of o w) with (read (optTicker o) w). rewrite RD, SS'. cbn [bind].
  destruct (PayoffType_eqb _ _); repeat split.
Qed.

Local Open Scope R_scope.
Lemma bs_evaluates : forall (o : Option R) w d ty K,
  read (optTicker o) w = Ok d -> optPayoff o = PVanilla ty K -> ty = Call \/ ty = Put ->
  evaluates (BlackScholesPDE o) w (bs_coefs (sigma_ d) (mR w) (dividend d) ty K (optT o)).
Proof.
  intros o w d ty K RD PO TY t x.
  cbn [BlackScholesPDE diffusion convection reaction rightHandSide boundaryLeft boundaryRight bs_coefs kd kc kr kf kl kg].
  unfold bs_diffusion, bs_convection, bs_reaction, bs_rightHandSide, bs_boundaryLeft, bs_boundaryRight.
  change (stock_of o w) with (read (optTicker o) w). rewrite RD, PO. cbn [bind payoff_clone singleStrike getPayoffType].
  unfold nhalf, lit, getSigma, getR, getCoupon, dividend, n0.
  cbn [nadd nsub nmul ndiv nopp nofZ nexp Rnum].
  split; [f_equal; change (10 ^ 1)%Z with 10%Z; field|]. split; [destruct (c_ d); reflexivity|].
  split; [reflexivity|]. split; [reflexivity|].
  destruct TY as [-> | ->]; cbn [PayoffType_eqb]; split; reflexivity.
Qed.
