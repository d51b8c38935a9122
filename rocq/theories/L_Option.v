From Coq Require Import String List ZArith Reals Bool Lia Arith.
From Verif Require Import M_Num M_Outcome M_Dict M_Stock M_Market M_Payoff M_Option
  S_Double S_Market S_Option L_B64 L_Dict L_Stock L_Market L_Payoff.
Import ListNotations.
Local Open Scope string_scope.

(** ** Parameter object *)
Section ParamObj.
Context {T : Type} {num : Num T}.

Lemma set_all_app : forall (l : list (string * ParamVal T)) c,
  set_all (l ++ [c]) = setParameter (fst c) (snd c) (set_all l).
Proof. intros. unfold set_all. now rewrite fold_left_app. Qed.

Lemma set_all_get : forall (l : list (string * ParamVal T)) n, dget n (set_all l) = last_set n l.
Proof.
  intros l. induction l as [|[m v] l IH] using rev_ind; intros n; auto.
  rewrite set_all_app. unfold last_set, setParameter. rewrite rev_app_distr; simpl.
  destruct (String.eqb_spec m n) as [->|N]; simpl.
  - apply dget_dset_same.
  - rewrite dget_dset_other by auto. apply IH.
Qed.

Lemma params_last_write : forall (l : list (string * ParamVal T)) n,
  hasParameter n (set_all l) = match last_set n l with Some _ => true | None => false end /\
  getInt n (set_all l) = match last_set n l with Some (VInt v) => Ok v | _ => Throw InvalidArgument end /\
  getDouble n (set_all l) = match last_set n l with Some (VDouble v) => Ok v | _ => Throw InvalidArgument end /\
  getString n (set_all l) = match last_set n l with Some (VString v) => Ok v | _ => Throw InvalidArgument end /\
  getDir n (set_all l) = match last_set n l with Some (VDir v) => Ok v | _ => Throw InvalidArgument end.
Proof.
  intros l n. unfold hasParameter, getInt, getDouble, getString, getDir. rewrite set_all_get. auto.
Qed.

Lemma last_set_never : forall (l : list (string * ParamVal T)) n,
  last_set n l = None <-> ~ In n (map fst l).
Proof.
  intros l n. unfold last_set.
  assert (E : find (fun c => String.eqb (fst c) n) (rev l) = None <-> ~ In n (map fst l)).
  { split.
    - intros F I. apply in_map_iff in I as ([m v] & E & I). simpl in E. subst m.
      eapply find_none in F; [|apply in_rev in I; exact I]. simpl in F. rewrite String.eqb_refl in F. discriminate.
    - intros I. destruct (find _ (rev l)) as [[m v]|] eqn:F; auto.
      apply find_some in F as [F E]. simpl in E. apply String.eqb_eq in E. subst m.
      exfalso. apply I. apply in_map_iff. exists (n, v). split; auto. now apply in_rev. }
  rewrite <- E. destruct (find _ (rev l)); simpl; split; congruence.
Qed.
End ParamObj.

(** ** Factories *)
Section Fact.
Context {T : Type} {num : Num T}.

Lemma bind_ok : forall A B (x : outcome A) (f : A -> outcome B) b,
  bind x f = Ok b <-> exists a, x = Ok a /\ f a = Ok b.
Proof.
  intros A B [a|e|] f b; simpl; split; try discriminate.
  - eauto.
  - intros (a' & E & H). injection E as ->. auto.
  - intros (a' & E & H); discriminate.
  - intros (a' & E & H); discriminate.
Qed.

(** Only Ok and invalid_argument *)
Definition ok_or_inv {A} (x : outcome A) : Prop := (exists a, x = Ok a) \/ x = Throw InvalidArgument.
Lemma bind_ok_or_inv : forall A B (x : outcome A) (f : A -> outcome B),
  ok_or_inv x -> (forall a, ok_or_inv (f a)) -> ok_or_inv (bind x f).
Proof. intros A B x f [[a ->]| ->] H; simpl; auto. now right. Qed.
Lemma getDouble_ooi : forall n (p : Params T), ok_or_inv (getDouble n p).
Proof. intros. unfold getDouble, ok_or_inv. destruct (dget n p) as [[]|]; eauto. Qed.
Lemma getString_ooi : forall n (p : Params T), ok_or_inv (getString n p).
Proof. intros. unfold getString, ok_or_inv. destruct (dget n p) as [[]|]; eauto. Qed.
Lemma getDir_ooi : forall n (p : Params T), ok_or_inv (getDir n p).
Proof. intros. unfold getDir, ok_or_inv. destruct (dget n p) as [[]|]; eauto. Qed.

Lemma payoff_create : forall k ty (p : Params T) pay, ty = Call \/ ty = Put ->
  (createSpecificPayoff k p ty = Ok pay <-> payoff_spec k ty p pay).
Proof.
  intros k ty p pay HT.
  assert (CP : isCallPut ty = true) by (destruct HT as [-> | ->]; reflexivity).
  destruct k; simpl; unfold PayoffVanilla_ctor, PayoffDigital_ctor, PayoffDoubleDigital_ctor, PayoffFloating_ctor;
    rewrite ?CP, ?bind_ok; simpl.
  all: try (split; [intros (K & E & H); destruct (nltb K n0) eqn:L; [discriminate|injection H as <-; eauto]
                   |intros (K & E & L & ->); exists K; rewrite L; auto]; fail).
  - split.
    + intros (K1 & E1 & H). apply bind_ok in H as (K2 & E2 & H).
      destruct (nltb K1 n0) eqn:L1; [discriminate|]. destruct (nltb K2 n0) eqn:L2; [discriminate|].
      injection H as <-. eauto 10.
    + intros (K1 & K2 & E1 & E2 & L1 & L2 & ->). exists K1. split; auto. apply bind_ok. exists K2.
      now rewrite L1, L2.
  - split; [intros H; now injection H|intros ->; auto].
Qed.

Lemma barrier_create : forall k (p : Params T) b,
  (if isBarrierKind k
   then bind (getDouble "B" p) (fun B => bind (getDir "direction" p) (fun d => Ok (Some (B, d))))
   else Ok None) = Ok b <-> barrier_spec k p b.
Proof.
  intros k p b. destruct k; simpl; try (split; [intros H; now injection H|intros ->; auto]);
    rewrite bind_ok; (split;
    [intros (B & E & H); apply bind_ok in H as (d & E' & H); injection H as <-; eauto
    |intros (B & d & E & E' & ->); exists B; split; auto; apply bind_ok; eauto]).
Qed.

Lemma checks_ok : forall tk t (w : Market T),
  Option_ctor_checks tk t w = Ok tt <-> nltb t n0 = false /\ exists l, getStockData tk w = Ok l.
Proof.
  intros. unfold Option_ctor_checks. destruct (nltb t n0); simpl.
  - split; [discriminate|intros [H _]; discriminate].
  - destruct (getStockData tk w); simpl; split; eauto; try discriminate; intros [_ [l H]]; discriminate.
Qed.

Lemma create_ok : forall k ty (p : Params T) w o, ty = Call \/ ty = Put ->
  (res (createOption k ty p w) = Ok o <-> describes k ty p w o).
Proof.
  intros k ty p w o HT. unfold createOption.
  assert (E : (exists w', bind (createSpecificPayoff k p ty) (fun pay => createSpecificOption k p pay w) = Ok (o, w'))
              <-> describes k ty p w o).
  { unfold describes, createSpecificOption. split.
    - intros (w' & H). apply bind_ok in H as (pay & HP & H). apply (payoff_create k ty p pay HT) in HP.
      apply bind_ok in H as (tk & HK & H). apply bind_ok in H as (t & Ht & H).
      apply bind_ok in H as (b & HB & H). apply barrier_create in HB.
      apply bind_ok in H as (u & HU & H). destruct u. apply checks_ok in HU as [HU1 HU2].
      injection H as <- _. simpl. repeat split; auto.
    - intros (Hk & HK & HU2 & Ht & HU1 & HP & HB & HO). destruct o as [k' tk t pay b ob]. simpl in *. subst k'.
      exists (newObserver tk true w). subst ob.
      apply bind_ok. exists pay. split; [now apply payoff_create|].
      apply bind_ok. exists tk. split; auto. apply bind_ok. exists t. split; auto.
      apply bind_ok. exists b. split; [now apply barrier_create|].
      apply bind_ok. exists tt. split; auto. now apply checks_ok. }
  rewrite <- E. destruct (bind _ _) as [[o' w']|e|]; simpl; split.
  - intros H; injection H as ->. eauto.
  - intros (w'' & H). injection H as -> ->. auto.
  - discriminate.
  - intros (w'' & H); discriminate.
  - discriminate.
  - intros (w'' & H); discriminate.
Qed.

Lemma create_ooi : forall k ty (p : Params T) w, ok_or_inv (res (createOption k ty p w)).
Proof.
  intros. unfold createOption.
  assert (O : ok_or_inv (bind (createSpecificPayoff k p ty) (fun pay => createSpecificOption k p pay w))).
  { apply bind_ok_or_inv.
    - destruct k; simpl; repeat (apply bind_ok_or_inv; [apply getDouble_ooi|intros]);
      unfold PayoffVanilla_ctor, PayoffDigital_ctor, PayoffDoubleDigital_ctor, PayoffFloating_ctor, ok_or_inv;
      repeat match goal with |- context [if ?b then _ else _] => destruct b end; eauto.
    - intros pay. unfold createSpecificOption. apply bind_ok_or_inv; [apply getString_ooi|]. intros tk.
      apply bind_ok_or_inv; [apply getDouble_ooi|]. intros t. apply bind_ok_or_inv.
      + destruct (isBarrierKind k); [|left; eauto]. apply bind_ok_or_inv; [apply getDouble_ooi|]. intros B.
        apply bind_ok_or_inv; [apply getDir_ooi|]. intros d. left; eauto.
      + intros b. apply bind_ok_or_inv; [|left; eauto]. unfold Option_ctor_checks.
        destruct (nltb t n0); [now right|]. unfold getStockData. destruct (dget tk (mMap w)); simpl; [left; eauto|now right]. }
  destruct O as [[[o w'] ->]| ->]; [left; simpl; eauto|now right].
Qed.

Lemma create_rejects : forall k ty (p : Params T) w, ty = Call \/ ty = Put ->
  ~ (exists o, describes k ty p w o) -> res (createOption k ty p w) = Throw InvalidArgument.
Proof.
  intros k ty p w HT H. destruct (create_ooi k ty p w) as [[o E]|E]; auto.
  exfalso. apply H. exists o. now apply create_ok.
Qed.

Lemma create_failed : forall k ty (p : Params T) w e,
  res (createOption k ty p w) = Throw e ->
  post (createOption k ty p w) = w /\ calls (createOption k ty p w) = [].
Proof.
  intros k ty p w e. unfold createOption. destruct (bind _ _) as [[o w']|e'|]; simpl; auto; discriminate.
Qed.

(** A successful creation is "new object, register it". *)
Lemma create_run : forall k ty (p : Params T) w o,
  res (createOption k ty p w) = Ok o ->
  post (createOption k ty p w) = run [ONewObserver (optTicker o) true; OAddObserver (optObj o)] w /\
  calls (createOption k ty p w) = [] /\ optObj o = List.length (mObj w).
Proof.
  intros k ty p w o. unfold createOption.
  destruct (bind _ _) as [[o' w']|e'|] eqn:E; simpl; try discriminate.
  intros H; injection H as ->.
  apply bind_ok in E as (pay & HP & H). unfold createSpecificOption in H.
  apply bind_ok in H as (tk & HK & H). apply bind_ok in H as (t & Ht & H).
  apply bind_ok in H as (b & HB & H). apply bind_ok in H as (u & HU & H).
  injection H as <- <-. simpl. repeat split; auto.
  unfold expired; simpl. rewrite nth_error_app2 by lia. rewrite Nat.sub_diag. reflexivity.
Qed.

Lemma create_registry : forall k ty (p : Params T) w o,
  res (createOption k ty p w) = Ok o ->
  mWeak (post (createOption k ty p w)) = (mWeak w ++ [optObj o])%list /\
  nth_error (mObj (post (createOption k ty p w))) (optObj o) = Some (mkObs (optTicker o) 1 true) /\
  (forall i, i < List.length (mObj w) -> nth_error (mObj (post (createOption k ty p w))) i = nth_error (mObj w) i) /\
  (forall t, read t (post (createOption k ty p w)) = read t w) /\
  getR (post (createOption k ty p w)) = getR w /\ calls (createOption k ty p w) = [].
Proof.
  intros k ty p w o H. destruct (create_run k ty p w o H) as (-> & -> & E).
  simpl. unfold expired; simpl. rewrite E.
  rewrite nth_error_app2 by lia. rewrite Nat.sub_diag. simpl.
  repeat split.
  - rewrite nth_error_app2 by lia. now rewrite Nat.sub_diag.
  - intros i L. now rewrite nth_error_app1.
Qed.

(** How often an observer occurs among the registrations of a history. *)
Lemma registrations_app : forall n (h1 h2 : list (op T)),
  registrations n (h1 ++ h2) = (registrations n h1 ++ registrations (n + created h1) h2)%list.
Proof.
  intros n h1 h2. revert n. induction h1 as [|x h1 IH]; intros n; simpl.
  - now rewrite Nat.add_0_r.
  - destruct x; simpl; rewrite IH; rewrite <- ?plus_n_Sm; auto.
    destruct (Nat.ltb o n); auto.
Qed.
Lemma registrations_lt : forall (h : list (op T)) n o, In o (registrations n h) -> o < n + created h.
Proof.
  induction h as [|x h IH]; intros n o H; [contradiction|].
  destruct x; simpl in *; try (apply IH in H; lia).
  destruct (Nat.ltb_spec o0 n).
  - destruct H as [<-|H]; [|apply IH in H]; lia.
  - apply IH in H; lia.
Qed.
Lemma registrations_none : forall (h : list (op T)) n o, ~ In (OAddObserver o) h -> ~ In o (registrations n h).
Proof.
  induction h as [|x h IH]; intros n o H I; [contradiction|].
  assert (H' : ~ In (OAddObserver o) h) by (intros K; apply H; simpl; auto).
  destruct x; simpl in I; try (now apply (IH _ _ H') in I).
  destruct (Nat.ltb o0 n); [|now apply (IH _ _ H') in I].
  destruct I as [->|I]; [|now apply (IH _ _ H') in I]. apply H. simpl; auto.
Qed.

Lemma objs_created : forall (h : list (op T)) w, List.length (mObj (run h w)) = List.length (mObj w) + created h.
Proof.
  induction h as [|x h IH]; intros w; simpl; [lia|]. rewrite IH, step_objs_length.
  destruct x; simpl; lia.
Qed.

Lemma created_follows : forall (h1 h2 : list (op T)) k ty p o t x,
  let w := run h1 MarketData_ctor in
  res (createOption k ty p w) = Ok o ->
  let w' := run h2 (post (createOption k ty p w)) in
  ~ In (OAddObserver (optObj o)) h2 ->
  live w' (optObj o) = true ->
  (exists v, x = OPrice t v) \/ (exists v, x = OSigma t v) \/ (exists v, x = OCoupon t v) ->
  res (step x w') = Ok tt ->
  count_occ Nat.eq_dec (calls (step x w')) (optObj o) = (if String.eqb t (optTicker o) then 1 else 0).
Proof.
  intros h1 h2 k ty p o t x w H w' NA L X R.
  destruct (create_run k ty p w o H) as (E & _ & EO).
  set (hc := [ONewObserver (optTicker o) true; OAddObserver (optObj o)]) in *.
  assert (W : w' = run (h1 ++ hc ++ h2) MarketData_ctor).
  { unfold w'. rewrite E. unfold w. now rewrite !run_app. }
  assert (ID : id_after (h1 ++ hc ++ h2) t (optObj o) = String.eqb t (optTicker o)).
  { rewrite <- has_id_after, <- W. unfold has_id.
    assert (G : forall h w i b r, nth_error (mObj w) (optObj o) = Some (mkObs i r b) ->
       exists r', nth_error (mObj (run h w)) (optObj o) = Some (mkObs i r' b)).
    { induction h as [|y h IH]; intros w0 i b r N; [eauto|]. simpl.
      pose proof (step_obj y w0 (optObj o)) as SO. unfold obj_of in SO. rewrite N in SO. simpl in SO.
      assert (exists r', nth_error (mObj (post (step y w0))) (optObj o) = Some (mkObs i r' b)) as [r' N'].
      { assert (LT : optObj o < List.length (mObj w0)) by (apply nth_error_Some; congruence).
        destruct (nth_error (mObj (post (step y w0))) (optObj o)) as [[i' r' b']|];
        destruct y; simpl in SO;
        repeat match type of SO with context [Nat.eqb ?a ?b] => destruct (Nat.eqb_spec a b) end; try lia;
        repeat match type of SO with context [match ?r with O => _ | S _ => _ end] => destruct r end;
        try discriminate; injection SO; intros; subst; eauto. }
      eapply IH; eauto. }
    unfold w'. destruct (create_registry k ty p w o H) as (_ & N & _).
    destruct (G h2 _ _ _ _ N) as [r' ->]. simpl. apply String.eqb_sym. }
  assert (C : calls (step x w') = filter (fun o => alive_after (h1 ++ hc ++ h2) o && id_after (h1 ++ hc ++ h2) t o)
                                   (registrations 0 (h1 ++ hc ++ h2))).
  { rewrite W. apply notified_by_update; auto. now rewrite <- W. }
  rewrite C. clear C.
  assert (AL : alive_after (h1 ++ hc ++ h2) (optObj o) = true) by (now rewrite <- live_after, <- W).
  assert (F : forall (f : nat -> bool) l, count_occ Nat.eq_dec (filter f l) (optObj o) =
            if f (optObj o) then count_occ Nat.eq_dec l (optObj o) else 0).
  { intros f l. induction l as [|a l IH]; simpl; [now destruct (f _)|].
    destruct (f a) eqn:Fa; simpl; destruct (Nat.eq_dec a (optObj o)) as [->|Q]; rewrite IH, ?Fa; auto. }
  rewrite F, AL, ID. simpl andb. destruct (String.eqb t (optTicker o)); auto.
  rewrite !registrations_app, !count_occ_app. unfold hc; simpl.
  assert (O1 : created h1 = optObj o).
  { rewrite EO. unfold w. rewrite objs_created. reflexivity. }
  replace (Nat.ltb (optObj o) (Datatypes.S (created h1))) with true by (symmetry; apply Nat.ltb_lt; lia).
  rewrite count_occ_cons_eq by auto. simpl.
  rewrite (proj1 (count_occ_not_In Nat.eq_dec (registrations 0 h1) (optObj o))).
  2:{ intros I. apply registrations_lt in I. lia. }
  rewrite (proj1 (count_occ_not_In Nat.eq_dec (registrations _ h2) (optObj o))); auto.
  now apply registrations_none.
Qed.
End Fact.

(** ** Option equality *)
Lemma option_eqb_sound : forall (a b : Option b64) w, option_eqb a b w = Ok true ->
  (notnan (optT a) /\ notnan (optT b) /\ val (optT a) = val (optT b)) /\
  same_payoff (optPayoff a) (optPayoff b) /\
  exists da db, read (optTicker a) w = Ok da /\ read (optTicker b) w = Ok db /\ stock_eqb da db = true.
Proof.
  intros a b w H. unfold option_eqb in H.
  destruct (neqb (optT a) (optT b)) eqn:E1; simpl in H; [|discriminate].
  destruct (payoff_eqb (optPayoff a) (optPayoff b)) eqn:E2; simpl in H; [|discriminate].
  apply eqb_true_iff in E1. apply payoff_eqb_iff in E2 as (_ & _ & E2).
  split; auto. split; auto. unfold read.
  destruct (getStockData (optTicker a) w) as [la| |]; try discriminate. simpl in *.
  destruct (deref la w) as [da| |]; try discriminate. simpl in *.
  destruct (getStockData (optTicker b) w) as [lb| |]; try discriminate. simpl in *.
  destruct (deref lb w) as [db| |]; try discriminate. simpl in *.
  injection H as H. eauto.
Qed.

Lemma double_digital_side : forall (p : Params b64) w,
  match res (createCallOption DoubleDigitalK p w), res (createPutOption DoubleDigitalK p w) with
  | Ok a, Ok b => forall S, option_payoff1 a S = option_payoff1 b S
  | Throw e, Throw f => e = f
  | _, _ => False
  end.
Proof.
  intros p w. change (createPutOption DoubleDigitalK p w) with (createCallOption DoubleDigitalK p w).
  destruct (create_ooi DoubleDigitalK Call p w) as [[o E]|E]; unfold createCallOption; rewrite E; auto.
Qed.

Lemma nonneg_strikes_maturity :
  (forall p : Payoff b64,
    (exists ty K, PayoffVanilla_ctor ty K = Ok p \/ PayoffDigital_ctor ty K = Ok p) \/
    (exists a b, PayoffDoubleDigital_ctor a b = Ok p) ->
    match p with
    | PVanilla _ K | PDigital _ K => ~ notnan K \/ (0 <= val K)%R
    | PDoubleDigital a b => (~ notnan a \/ (0 <= val a)%R) /\ (~ notnan b \/ (0 <= val b)%R)
    | PFloating _ => True
    end) /\
  (forall k ty p w o, ty = Call \/ ty = Put -> res (createOption k ty p w) = Ok o ->
     ~ notnan (optT o) \/ (0 <= val (optT o))%R) /\
  (forall ty K, ty = Call \/ ty = Put -> (val K < 0)%R -> PayoffVanilla_ctor ty K = Throw InvalidArgument /\
     PayoffDigital_ctor ty K = Throw InvalidArgument) /\
  (forall a b, (val a < 0 \/ val b < 0)%R -> PayoffDoubleDigital_ctor a b = Throw InvalidArgument) /\
  (forall (K : b64) ty, ~ (ty = Call \/ ty = Put) -> PayoffVanilla_ctor ty K = Throw InvalidArgument /\
     PayoffDigital_ctor ty K = Throw InvalidArgument /\ @PayoffFloating_ctor b64 ty = Throw InvalidArgument).
Proof.
  split; [exact payoff_ctor_strikes|]. split; [|split; [|split]].
  - intros k ty p w o HT H. apply create_ok in H as (_ & _ & _ & _ & H & _); auto.
    now apply not_negative.
  - intros ty K _ H. unfold PayoffVanilla_ctor, PayoffDigital_ctor. now rewrite negative_lt.
  - intros a b H. unfold PayoffDoubleDigital_ctor. destruct H as [H|H]; rewrite (negative_lt _ H); auto.
    now destruct (nltb a n0).
  - intros K ty H. unfold PayoffVanilla_ctor, PayoffDigital_ctor, PayoffFloating_ctor.
    replace (isCallPut ty) with false by (destruct ty; cbn; tauto). cbn [negb]. now destruct (nltb K n0).
Qed.
