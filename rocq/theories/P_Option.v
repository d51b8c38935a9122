(** Properties C12-C25: parameter object, factories, options, payoffs. *)
From Coq Require Import String List ZArith Reals Bool Lra Lia.
From Flocq Require Raux.
From Verif Require Import M_Num M_Outcome M_Dict M_Stock M_Market M_Payoff M_Option
  S_Double S_Market S_Option L_B64 L_Stock L_Market L_Payoff L_Option P_Market.
Import ListNotations.
Local Open Scope string_scope.

Definition dd1 : b64 := b64_ofZ 1.

(** ** C12 *)
Theorem C12_parameter_object : forall T (num : Num T) (l : list (string * ParamVal T)) n,
  hasParameter n (set_all l) = match last_set n l with Some _ => true | None => false end /\
  getInt n (set_all l) = match last_set n l with Some (VInt v) => Ok v | _ => Throw InvalidArgument end /\
  getDouble n (set_all l) = match last_set n l with Some (VDouble v) => Ok v | _ => Throw InvalidArgument end /\
  getString n (set_all l) = match last_set n l with Some (VString v) => Ok v | _ => Throw InvalidArgument end /\
  getDir n (set_all l) = match last_set n l with Some (VDir v) => Ok v | _ => Throw InvalidArgument end /\
  (last_set n l = None <-> ~ In n (map fst l)).
Proof.
  intros T num l n. destruct (params_last_write l n) as (A & B & C & D & E).
  repeat split; auto; apply (last_set_never l n).
Qed.
Print Assumptions C12_parameter_object.

Example C12_ex : let p := set_all [("K", VDouble d90); ("T", VInt 1); ("K", VDouble d100)] in
  getDouble "K" p = Ok d100 /\ getDouble "T" p = Throw InvalidArgument /\ getInt "T" p = Ok 1%Z /\
  hasParameter "B" p = false /\ getString "B" p = Throw InvalidArgument.
Proof. repeat split. Qed.

(** ** C13 *)
Theorem C13_factory_exact : forall T (num : Num T) k ty (p : Params T) w, ty = Call \/ ty = Put ->
  (forall o, res (createOption k ty p w) = Ok o <-> describes k ty p w o) /\
  (~ (exists o, describes k ty p w o) -> res (createOption k ty p w) = Throw InvalidArgument).
Proof.
  exact (fun T num k ty p w HT => conj (fun o => create_ok k ty p w o HT) (create_rejects k ty p w HT)).
Qed.
Print Assumptions C13_factory_exact.

(** The two functions a caller has: the side is the one of the function's name. *)
Theorem C13_call_put : forall T (num : Num T) k (p : Params T) w,
  (forall o, res (createCallOption k p w) = Ok o <-> describes k Call p w o) /\
  (forall o, res (createPutOption k p w) = Ok o <-> describes k Put p w o) /\
  (~ (exists o, describes k Call p w o) -> res (createCallOption k p w) = Throw InvalidArgument) /\
  (~ (exists o, describes k Put p w o) -> res (createPutOption k p w) = Throw InvalidArgument).
Proof.
  intros T num k p w.
  destruct (C13_factory_exact T num k Call p w (or_introl eq_refl)) as [A B].
  destruct (C13_factory_exact T num k Put p w (or_intror eq_refl)) as [C D].
  exact (conj A (conj C (conj B D))).
Qed.
Print Assumptions C13_call_put.

Definition w_aapl : Market b64 := run [OAddStock "AAPL" d100 d02 None] MarketData_ctor.
Definition w_two : Market b64 :=
  run [OAddStock "AAPL" d100 d02 None; OAddStock "MSFT" d100 d02 None] MarketData_ctor.
Definition p_vanilla : Params b64 :=
  set_all [("ticker", VString "AAPL"); ("K", VDouble d100); ("T", VDouble dd1)].
Definition p_barrier (B : b64) (d : BarrierDirection) : Params b64 :=
  set_all [("ticker", VString "AAPL"); ("K", VDouble d100); ("T", VDouble dd1);
           ("B", VDouble B); ("direction", VDir d)].

Example C13_ex :
  res (createCallOption European p_vanilla w_aapl) =
    Ok (mkOption European "AAPL" dd1 (PVanilla Call d100) None 0) /\
  res (createPutOption KnockIn (p_barrier d90 Down) w_aapl) =
    Ok (mkOption KnockIn "AAPL" dd1 (PVanilla Put d100) (Some (d90, Down)) 0) /\
  res (createPutOption KnockIn p_vanilla w_aapl) = Throw InvalidArgument /\
  res (createCallOption European p_vanilla MarketData_ctor) = Throw InvalidArgument.
Proof. repeat split. Qed.

(** ** C14 *)
Theorem C14_failed_creation : forall T (num : Num T) k ty (p : Params T) w e,
  res (createOption k ty p w) = Throw e ->
  post (createOption k ty p w) = w /\ calls (createOption k ty p w) = [].
Proof. exact @create_failed. Qed.
Print Assumptions C14_failed_creation.

Example C14_ex : res (createOption KnockIn Put p_vanilla w_aapl) = Throw InvalidArgument /\
  mWeak w_aapl = [] /\ mWeak (post (createOption KnockIn Put p_vanilla w_aapl)) = [] /\
  mWeak (post (createOption European Put p_vanilla w_aapl)) = [0%nat].
Proof. repeat split. Qed.

(** ** C15 *)
Theorem C15_created_registered : forall T (num : Num T) k ty (p : Params T) w o,
  res (createOption k ty p w) = Ok o ->
  mWeak (post (createOption k ty p w)) = (mWeak w ++ [optObj o])%list /\
  nth_error (mObj (post (createOption k ty p w))) (optObj o) = Some (mkObs (optTicker o) 1 true) /\
  (forall i, i < List.length (mObj w) -> nth_error (mObj (post (createOption k ty p w))) i = nth_error (mObj w) i) /\
  (forall t, read t (post (createOption k ty p w)) = read t w) /\
  getR (post (createOption k ty p w)) = getR w /\ calls (createOption k ty p w) = [].
Proof. exact @create_registry. Qed.
Print Assumptions C15_created_registered.

Theorem C15_created_follows : forall T (num : Num T) (h1 h2 : list (op T)) k ty p o t x,
  let w := run h1 MarketData_ctor in
  res (createOption k ty p w) = Ok o ->
  let w' := run h2 (post (createOption k ty p w)) in
  ~ In (OAddObserver (optObj o)) h2 ->
  live w' (optObj o) = true ->
  (exists v, x = OPrice t v) \/ (exists v, x = OSigma t v) \/ (exists v, x = OCoupon t v) ->
  res (step x w') = Ok tt ->
  count_occ Nat.eq_dec (calls (step x w')) (optObj o) = (if String.eqb t (optTicker o) then 1 else 0).
Proof. exact @created_follows. Qed.
Print Assumptions C15_created_follows.

Example C15_ex : let w' := post (createCallOption European p_vanilla w_two) in
  live w' 0 = true /\ calls (step (OPrice "AAPL" d90) w') = [0] /\
  res (step (OPrice "AAPL" d90) w') = Ok tt /\ calls (step (OPrice "MSFT" d90) w') = [] /\
  res (step (OPrice "MSFT" d90) w') = Ok tt.
Proof. repeat split. Qed.

(** ** C16: refuted in all three respects *)
Definition o_of (r : Res b64 (Option b64)) : option (Option b64) :=
  match res r with Ok o => Some o | _ => None end.

Theorem C16_equal_options_refuted :
  (exists a b w, res (createCallOption European p_vanilla w_aapl) = Ok a /\
     res (createCallOption American p_vanilla w_aapl) = Ok b /\
     w = w_aapl /\ option_eqb a b w = Ok true /\ optKind a <> optKind b) /\
  (exists a b w, res (createCallOption European p_vanilla w_two) = Ok a /\
     res (createCallOption European (setParameter "ticker" (VString "MSFT") p_vanilla) w_two) = Ok b /\
     w = w_two /\ option_eqb a b w = Ok true /\ optTicker a <> optTicker b) /\
  (exists a b w, res (createCallOption KnockIn (p_barrier d90 Down) w_aapl) = Ok a /\
     res (createCallOption KnockIn (p_barrier d100 Up) w_aapl) = Ok b /\
     w = w_aapl /\ option_eqb a b w = Ok true /\
     option_map snd (optBarrier a) <> option_map snd (optBarrier b)).
Proof.
  split; [|split]; (do 3 eexists; split; [reflexivity|]; split; [reflexivity|]; split; [reflexivity|]);
    (split; [vm_compute; reflexivity|discriminate]).
Qed.
Print Assumptions C16_equal_options_refuted.

(** What equality does give: maturities, payoffs (class, side, strikes) and the current
    stock data agree. *)
Theorem C16_equal_options_partial : forall (a b : Option b64) w, option_eqb a b w = Ok true ->
  (notnan (optT a) /\ notnan (optT b) /\ val (optT a) = val (optT b)) /\
  same_payoff (optPayoff a) (optPayoff b) /\
  exists da db, read (optTicker a) w = Ok da /\ read (optTicker b) w = Ok db /\ stock_eqb da db = true.
Proof. exact option_eqb_sound. Qed.
Print Assumptions C16_equal_options_partial.

(** Equality of two options is not stable either: it compares current market data. *)
Example C16_unstable_ex : let a := mkOption European "AAPL" dd1 (PVanilla Call d100) None 0 in
  let b := mkOption European "MSFT" dd1 (PVanilla Call d100) None 1 in
  option_eqb a b w_two = Ok true /\
  option_eqb a b (run [OPrice "MSFT" d90] w_two) = Ok false.
Proof. split; vm_compute; reflexivity. Qed.

(** ** C17 *)
Theorem C17_knock_complementary : forall (B S : b64) d, notnan B -> notnan S ->
  knockIn_isActive B d S = negb (knockOut_isActive B d S) /\
  (knockIn_isActive B d S = true <->
   match d with Up => (val S >= val B)%R | Down => (val S <= val B)%R end).
Proof. exact barrier_touched. Qed.
Print Assumptions C17_knock_complementary.

Example C17_ex : knockIn_isActive d90 Down d90 = true /\ knockOut_isActive d90 Down d90 = false /\
  knockIn_isActive d90 Down d100 = false /\ knockIn_isActive d90 Up d100 = true.
Proof. repeat split; vm_compute; reflexivity. Qed.

(** ** C18 *)
Theorem C18_vanilla_split : forall S K : b64, finite S -> finite K ->
  exists c p, payoff1 (PVanilla Call K) S = Ok c /\ payoff1 (PVanilla Put K) S = Ok p /\
    notnan c /\ notnan p /\ (0 <= val c)%R /\ (0 <= val p)%R /\ (val c = 0 \/ val p = 0)%R /\
    notnan (b64_sub c p) /\ val (b64_sub c p) = val (b64_sub S K).
Proof. exact vanilla_split. Qed.
Print Assumptions C18_vanilla_split.

Example C18_ex : finite d100 /\ finite d90 /\
  match payoff1 (PVanilla Call d90) d100, payoff1 (PVanilla Put d90) d100 with
  | Ok c, Ok p => b64_eqb c (b64_ofZ 10) && b64_eqb p n0
  | _, _ => false
  end = true.
Proof. repeat split; vm_compute; reflexivity. Qed.

(** ** C19 *)
Theorem C19_vanilla_monotone : forall S1 S2 K1 K2 : b64,
  finite S1 -> finite S2 -> finite K1 -> finite K2 ->
  (val S1 <= val S2)%R -> (val K1 <= val K2)%R ->
  exists c12 c21 p12 p21,
    payoff1 (PVanilla Call K2) S1 = Ok c12 /\ payoff1 (PVanilla Call K1) S2 = Ok c21 /\
    payoff1 (PVanilla Put K2) S1 = Ok p12 /\ payoff1 (PVanilla Put K1) S2 = Ok p21 /\
    (val c12 <= val c21)%R /\ (val p21 <= val p12)%R.
Proof. exact vanilla_monotone. Qed.
Print Assumptions C19_vanilla_monotone.

Theorem C19_vanilla_convex : forall ty K S1 S2 l, (ty = Call \/ ty = Put) -> (0 <= l <= 1)%R ->
  exists v v1 v2 : R,
    payoff1 (PVanilla ty K) (l * S1 + (1 - l) * S2)%R = Ok v /\
    payoff1 (PVanilla ty K) S1 = Ok v1 /\ payoff1 (PVanilla ty K) S2 = Ok v2 /\
    (v <= l * v1 + (1 - l) * v2)%R /\ (Rabs (v1 - v2) <= Rabs (S1 - S2))%R.
Proof. exact vanilla_convex. Qed.
Print Assumptions C19_vanilla_convex.

Definition pays (p : Payoff b64) (S : b64) (n : Z) : bool :=
  match payoff1 p S with Ok v => b64_eqb v (b64_ofZ n) | _ => false end.
Example C19_ex : (finite d90 /\ finite d100 /\ (val d90 <= val d100)%R) /\
  pays (PVanilla Call d100) d90 0 = true /\ pays (PVanilla Call d90) d100 10 = true /\
  pays (PVanilla Put d100) d90 10 = true /\ pays (PVanilla Put d90) d100 0 = true /\
  (* convexity is strict across the strike: 10 against 15 *)
  payoff1 (PVanilla Call 100%R) (1/2 * 90 + (1 - 1/2) * 130)%R = Ok (110 - 100)%R /\
  payoff1 (PVanilla Call 100%R) 90%R = Ok 0%R /\ payoff1 (PVanilla Call 100%R) 130%R = Ok (130 - 100)%R.
Proof.
  split; [split; [reflexivity|split; [reflexivity|apply leb_true_iff; vm_compute; reflexivity]]|].
  repeat (split; [vm_compute; reflexivity|]).
  assert (C : forall S : R, payoff1 (PVanilla Call 100%R) S = Ok (Rmax (S - 100) 0)).
  { intros S. cbn. unfold nmax, n0; cbn. unfold Rmax.
    destruct (Raux.Rlt_bool_spec (S - 100) 0), (Rle_dec (S - 100) 0); f_equal; lra. }
  rewrite !C. repeat split; f_equal; ((rewrite Rmax_left by lra) || (rewrite Rmax_right by lra)); lra.
Qed.

(** ** C20 *)
Theorem C20_digital : forall S K : b64, notnan S -> notnan K ->
  (exists c p, payoff1 (PDigital Call K) S = Ok c /\ payoff1 (PDigital Put K) S = Ok p /\
    (val S > val K -> val c = 1)%R /\ (val S <= val K -> val c = 0)%R /\
    (val S < val K -> val p = 1)%R /\ (val S >= val K -> val p = 0)%R /\
    (val S <> val K -> val (b64_add c p) = 1%R)).
Proof.
  intros S K NS NK. destruct (digital_call S K NS NK) as (c & E & A & B).
  destruct (digital_put S K NS NK) as (p & E' & A' & B').
  destruct (digital_sum S K NS NK) as (c' & p' & F & F' & G & _).
  exists c, p. rewrite F in E. injection E as <-. rewrite F' in E'. injection E' as <-. auto 10.
Qed.
Print Assumptions C20_digital.
Theorem C20_digital_nan : forall ty S K, ~ notnan S \/ ~ notnan K ->
  payoff1 (PDigital ty K) S = Ok (n0 : b64).
Proof. exact digital_nan. Qed.
Print Assumptions C20_digital_nan.

Example C20_ex : notnan d90 /\ notnan d100 /\
  pays (PDigital Call d90) d100 1 = true /\ pays (PDigital Put d90) d100 0 = true /\
  pays (PDigital Call d100) d90 0 = true /\ pays (PDigital Put d100) d90 1 = true /\
  (* at the strike neither side pays *)
  pays (PDigital Call d90) d90 0 = true /\ pays (PDigital Put d90) d90 0 = true /\
  pays (PDigital Put b64_nan) d90 0 = true.
Proof. repeat split; vm_compute; reflexivity. Qed.

(** ** C21 *)
Theorem C21_double_digital : forall S KL KU : b64, notnan S -> notnan KL -> notnan KU ->
  exists v, payoff1 (PDoubleDigital KL KU) S = Ok v /\
    (val KL <= val S <= val KU -> val v = 1)%R /\ (~ (val KL <= val S <= val KU) -> val v = 0)%R /\
    (val KU < val KL -> val v = 0)%R.
Proof. exact double_digital. Qed.
Print Assumptions C21_double_digital.
Theorem C21_double_digital_nan : forall S KL KU, ~ notnan S \/ ~ notnan KL \/ ~ notnan KU ->
  payoff1 (PDoubleDigital KL KU) S = Ok (n0 : b64).
Proof. exact double_digital_nan. Qed.
Print Assumptions C21_double_digital_nan.
Theorem C21_side_ignored : forall (p : Params b64) w,
  match res (createCallOption DoubleDigitalK p w), res (createPutOption DoubleDigitalK p w) with
  | Ok a, Ok b => forall S, option_payoff1 a S = option_payoff1 b S
  | Throw e, Throw f => e = f
  | _, _ => False
  end.
Proof. exact double_digital_side. Qed.
Print Assumptions C21_side_ignored.

Example C21_ex : pays (PDoubleDigital d90 d100) d90 1 = true /\ pays (PDoubleDigital d90 d100) d100 1 = true /\
  pays (PDoubleDigital d90 d100) (b64_ofZ 101) 0 = true /\ pays (PDoubleDigital d100 d90) (b64_ofZ 95) 0 = true /\
  pays (PDoubleDigital d90 d100) b64_nan 0 = true.
Proof. repeat split; vm_compute; reflexivity. Qed.

(** ** C22 *)
Theorem C22_floating : forall (S X : b64), finite S -> finite X ->
  (exists v, payoff2 (PFloating Call) S X = Ok v /\ notnan v /\ (0 <= val v)%R /\
     ((val X <= val S)%R -> val v = val (b64_sub S X) /\ val v = fl (Rabs (val S - val X)))) /\
  (exists v, payoff2 (PFloating Put) S X = Ok v /\ notnan v /\ (0 <= val v)%R /\
     ((val S <= val X)%R -> val v = val (b64_sub X S) /\ val v = fl (Rabs (val S - val X)))).
Proof. exact floating_spec. Qed.
Print Assumptions C22_floating.

Example C22_ex : finite d90 /\ finite d100 /\
  match payoff2 (PFloating Call) d100 d90, payoff2 (PFloating Put) d100 d90, payoff2 (PFloating Put) d90 d100 with
  | Ok a, Ok b, Ok c => b64_eqb a (b64_ofZ 10) && b64_eqb b n0 && b64_eqb c (b64_ofZ 10)
  | _, _, _ => false
  end = true.
Proof. repeat split; vm_compute; reflexivity. Qed.

(** ** C23 *)
Theorem C23_payoff_equality :
  (forall p q : Payoff b64,
     payoff_eqb p q = true <-> strikes_nan_free p /\ strikes_nan_free q /\ same_payoff p q) /\
  (forall p : Payoff b64, payoff_eqb p p = true <-> strikes_nan_free p) /\
  (forall p : Payoff b64, payoff_eqb p (payoff_clone p) = true <-> strikes_nan_free p) /\
  (forall p q : Payoff b64, payoff_eqb p q = payoff_eqb q p) /\
  (forall p q r : Payoff b64, payoff_eqb p q = true -> payoff_eqb q r = true -> payoff_eqb p r = true) /\
  (forall p q : Payoff b64, payoff_eqb p q = true ->
     forall S X, out_same (payoff1 p S) (payoff1 q S) /\ out_same (payoff2 p S X) (payoff2 q S X)).
Proof.
  exact (conj payoff_eqb_iff (conj payoff_eqb_refl (conj payoff_eqb_clone
        (conj payoff_eqb_sym (conj payoff_eqb_trans payoff_eqb_values))))).
Qed.
Print Assumptions C23_payoff_equality.

Example C23_ex : payoff_eqb (PVanilla Call (b64_ofZ 0)) (PVanilla Call (b64_opp (b64_ofZ 0))) = true /\
  payoff_eqb (PVanilla Call d100) (PDigital Call d100) = false.
Proof. split; vm_compute; reflexivity. Qed.

(** ** C24 *)
Theorem C24_arity : forall T (num : Num T) (p : Payoff T),
  ((forall S, isOk (payoff1 p S) = true) /\ (forall S X, payoff2 p S X = Throw LogicError)) \/
  ((forall S, payoff1 p S = Throw LogicError) /\ (forall S X, isOk (payoff2 p S X) = true)).
Proof. exact @payoff_arity. Qed.
Print Assumptions C24_arity.

Example C24_ex : payoff2 (PVanilla Call d100) d90 d90 = Throw LogicError /\ isOk (payoff1 (PVanilla Call d100) d90) = true /\
  payoff1 (PFloating Call) d90 = Throw LogicError /\ isOk (payoff2 (PFloating Call) d90 d90) = true.
Proof. repeat split. Qed.

(** ** C25: refuted for NaN *)
Theorem C25_no_nan_strike_refuted :
  (exists K p, ~ notnan K /\ PayoffVanilla_ctor Call K = Ok p /\ p = PVanilla Call K) /\
  (exists p o, res (createCallOption European p w_aapl) = Ok o /\ ~ notnan (optT o)).
Proof.
  split.
  - exists b64_nan, (PVanilla Call b64_nan). repeat split. discriminate.
  - exists (setParameter "T" (VDouble b64_nan) p_vanilla). eexists. split; [reflexivity|discriminate].
Qed.
Print Assumptions C25_no_nan_strike_refuted.

(** Apart from NaN: every strike and maturity is nonnegative, and negative ones are
    rejected with invalid_argument. *)
Theorem C25_nonnegative_partial :
  (forall p : Payoff b64,
    (exists ty K, PayoffVanilla_ctor ty K = Ok p \/ PayoffDigital_ctor ty K = Ok p) \/
    (exists a b, PayoffDoubleDigital_ctor a b = Ok p) ->
    match p with
    | PVanilla _ K | PDigital _ K => ~ notnan K \/ (0 <= val K)%R
    | PDoubleDigital a b => (~ notnan a \/ (0 <= val a)%R) /\ (~ notnan b \/ (0 <= val b)%R)
    | PFloating _ => True
    end) /\
  (forall k ty p w o, ty = Call \/ ty = Put -> res (createOption k ty p w) = Ok o ->
     ~ notnan (optT o) \/ (0 <= val (optT o))%R) /\
  (forall ty K, ty = Call \/ ty = Put -> (val K < 0)%R -> PayoffVanilla_ctor ty K = Throw InvalidArgument /\
     PayoffDigital_ctor ty K = Throw InvalidArgument) /\
  (forall a b, (val a < 0 \/ val b < 0)%R -> PayoffDoubleDigital_ctor a b = Throw InvalidArgument) /\
  (forall (K : b64) ty, ~ (ty = Call \/ ty = Put) -> PayoffVanilla_ctor ty K = Throw InvalidArgument /\
     PayoffDigital_ctor ty K = Throw InvalidArgument /\ @PayoffFloating_ctor b64 ty = Throw InvalidArgument).
Proof. exact nonneg_strikes_maturity. Qed.
Print Assumptions C25_nonnegative_partial.

Example C25_ex : PayoffVanilla_ctor Call dm5 = Throw InvalidArgument /\
  isOk (PayoffVanilla_ctor Call d100) = true.
Proof. split; vm_compute; reflexivity. Qed.
