(** Properties C01-C11: stock data, market data, observers, singleton. *)
From Coq Require Import String List ZArith Reals Bool Lra Lia.
From Verif Require Import M_Num M_Outcome M_Dict M_Stock M_Market M_Singleton
  S_Double S_Market L_B64 L_Stock L_Market L_Singleton.
Import ListNotations.
Local Open Scope string_scope.

(** Some concrete doubles for the examples. *)
Definition d100 : b64 := b64_ofZ 100.
Definition d90 : b64 := b64_ofZ 90.
Definition dm5 : b64 := b64_ofZ (-5).
Definition d02 : b64 := lit 2 1.
Definition d03 : b64 := lit 3 1.

(** ** C01 *)
Theorem C01_stock_validation : forall p s c, nan_free p s c ->
  (valid_stock p s c ->
     exists d, StockData_ctor p s c = Ok d /\ getPrice d = p /\ getSigma d = s /\ getCoupon d = c) /\
  (~ valid_stock p s c -> StockData_ctor p s c = Throw InvalidArgument).
Proof. exact (fun p s c N => conj (stock_ctor_valid p s c N) (stock_ctor_invalid p s c N)). Qed.
Print Assumptions C01_stock_validation.

Example C01_ex : nan_free d100 d02 (Some d03) /\ isOk (StockData_ctor d100 d02 (Some d03)) = true
  /\ nan_free dm5 d02 None /\ StockData_ctor dm5 d02 None = Throw InvalidArgument.
Proof. repeat split; vm_compute; reflexivity. Qed.

(** ** C02: refuted, NaN passes every check *)
Theorem C02_nan_rejected_refuted :
  exists p s c, ~ nan_free p s c /\ isOk (StockData_ctor p s c) = true.
Proof. exists b64_nan, d02, None. split; [intros [H _]; discriminate H|reflexivity]. Qed.
Print Assumptions C02_nan_rejected_refuted.

(** NaN is in fact accepted in every field, by the constructor and by updates. *)
Theorem C02_nan_accepted_everywhere : forall p s c,
  (exists d, StockData_ctor p s c = Ok d) <->
  nan_or p (0 < val p)%R /\ nan_or s (0 <= val s)%R /\
  match c with None => True | Some x => nan_or x (0 <= val x <= 1)%R end.
Proof. exact stock_ctor_all. Qed.
Print Assumptions C02_nan_accepted_everywhere.

Example C02_update_ex : exists h : list (op b64),
  res (step (OPrice "AAPL" b64_nan) (run h MarketData_ctor)) = Ok tt /\
  read "AAPL" (run (h ++ [OPrice "AAPL" b64_nan]) MarketData_ctor) = Ok (mkStock b64_nan d02 None).
Proof. exists [OAddStock "AAPL" d100 d02 None]. split; reflexivity. Qed.

(** ** C03, for exact arithmetic and for IEEE doubles alike *)
Theorem C03_market_is_map : forall T (num : Num T) (h : list (op T)) t,
  read t (run h MarketData_ctor) = as_read (stock_after t None h).
Proof. exact @market_read. Qed.
Print Assumptions C03_market_is_map.

Theorem C03_unknown_ticker : forall T (num : Num T) (h : list (op T)) t,
  read t (run h MarketData_ctor) = Throw InvalidArgument <->
  ~ (exists p s c, In (OAddStock t p s c) h /\ accepts p s c = true).
Proof. exact @unknown_ticker. Qed.
Print Assumptions C03_unknown_ticker.

Theorem C03_rate : forall T (num : Num T) (h : list (op T)),
  getR (run h MarketData_ctor) = rate_after (lit 5 2) h.
Proof. exact @market_rate. Qed.
Print Assumptions C03_rate.

Theorem C03_outcome : forall T (num : Num T) (h : list (op T)) x,
  res (step x (run h MarketData_ctor)) = outcome_of x (fun t => stock_after t None h).
Proof. exact @market_outcome. Qed.
Print Assumptions C03_outcome.

Example C03_ex : let h := [OAddStock "A" d100 d02 None; OAddStock "B" d90 d03 None;
                           OPrice "A" d90; OSetR d03; OAddStock "B" d100 d02 None; OSigma "B" d03;
                           OPrice "C" d90] in
  read "A" (run h MarketData_ctor) = Ok (mkStock d90 d02 None) /\
  read "B" (run h MarketData_ctor) = Ok (mkStock d100 d03 None) /\
  read "C" (run h MarketData_ctor) = Throw InvalidArgument /\
  getR (run h MarketData_ctor) = d03.
Proof. repeat split. Qed.

(** ** C04: refuted for updates *)
Theorem C04_rejected_changes_nothing_refuted : exists (h : list (op b64)) x t,
  res (step x (run h MarketData_ctor)) = Throw InvalidArgument /\
  read t (post (step x (run h MarketData_ctor))) <> read t (run h MarketData_ctor).
Proof.
  exists [OAddStock "AAPL" d100 d02 None], (OPrice "AAPL" dm5), "AAPL".
  split; [reflexivity|]. intros H.
  apply (f_equal (fun o => match o with Ok d => b64_ltb (getPrice d) n0 | _ => false end)) in H.
  vm_compute in H. discriminate.
Qed.
Print Assumptions C04_rejected_changes_nothing_refuted.

(** What a rejected call does leave alone: everything, for addStock and for unknown
    tickers; otherwise the rate, the set of tickers, the registry, every other ticker,
    and the two fields not being updated. *)
Theorem C04_rejected_changes_nothing_partial : forall T (num : Num T) (h : list (op T)) x e,
  let w := run h MarketData_ctor in
  res (step x w) = Throw e ->
  calls (step x w) = [] /\
  getR (post (step x w)) = getR w /\
  mWeak (post (step x w)) = mWeak w /\ mObj (post (step x w)) = mObj w /\
  (forall t, isOk (read t (post (step x w))) = isOk (read t w)) /\
  (forall t, concerns x <> Some t -> read t (post (step x w)) = read t w) /\
  (forall t p s c, x = OAddStock t p s c -> post (step x w) = w) /\
  (forall t d, read t w = Ok d -> exists d', read t (post (step x w)) = Ok d' /\
     (sigma_ d' = sigma_ d \/ exists s, x = OSigma t s) /\
     (c_ d' = c_ d \/ exists c, x = OCoupon t c) /\
     (S_ d' = S_ d \/ exists p, x = OPrice t p)).
Proof. exact @rejected_partial. Qed.
Print Assumptions C04_rejected_changes_nothing_partial.

Example C04_ex : let h := [OAddStock "AAPL" d100 d02 None] in
  res (step (OAddStock "AAPL" dm5 d03 None) (run h MarketData_ctor)) = Throw InvalidArgument /\
  read "AAPL" (run (h ++ [OAddStock "AAPL" dm5 d03 None]) MarketData_ctor) = Ok (mkStock d100 d02 None) /\
  res (step (OPrice "AAPL" dm5) (run h MarketData_ctor)) = Throw InvalidArgument /\
  read "AAPL" (run (h ++ [OPrice "AAPL" dm5]) MarketData_ctor) = Ok (mkStock dm5 d02 None).
Proof. repeat split. Qed.

(** ** C05: refuted *)
Theorem C05_rejected_update_does_not_block_refuted : exists (h : list (op b64)) t p s,
  res (step (OPrice t p) (run h MarketData_ctor)) = Throw InvalidArgument /\
  res (step (OSigma t s) (run h MarketData_ctor)) = Ok tt /\
  res (step (OSigma t s) (run (h ++ [OPrice t p]) MarketData_ctor)) = Throw InvalidArgument.
Proof. exists [OAddStock "AAPL" d100 d02 None], "AAPL", dm5, d03. repeat split. Qed.
Print Assumptions C05_rejected_update_does_not_block_refuted.

(** Exactly when an update of a known ticker succeeds: when the whole triple it leads to
    is acceptable - so a rejected value left in one field makes every update of the other
    fields fail until that field is overwritten. *)
Theorem C05_update_succeeds_iff : forall T (num : Num T) (h : list (op T)) t d,
  let w := run h MarketData_ctor in
  read t w = Ok d ->
  (forall p, res (step (OPrice t p) w) = Ok tt <-> accepts p (sigma_ d) (c_ d) = true) /\
  (forall s, res (step (OSigma t s) w) = Ok tt <-> accepts (S_ d) s (c_ d) = true) /\
  (forall c, res (step (OCoupon t c) w) = Ok tt <-> accepts (S_ d) (sigma_ d) c = true).
Proof. exact @update_succeeds_iff. Qed.
Print Assumptions C05_update_succeeds_iff.

Theorem C05_blocked_until_repaired : forall T (num : Num T) (h : list (op T)) t d p,
  read t (run h MarketData_ctor) = Ok d -> nleb p n0 = true ->
  let w := run (h ++ [OPrice t p]) MarketData_ctor in
  (forall s, res (step (OSigma t s) w) = Throw InvalidArgument) /\
  (forall c, res (step (OCoupon t c) w) = Throw InvalidArgument) /\
  (forall p', accepts p' (sigma_ d) (c_ d) = true -> res (step (OPrice t p') w) = Ok tt).
Proof. exact @blocked_until_repaired. Qed.
Print Assumptions C05_blocked_until_repaired.

Example C05_ex : let h := [OAddStock "AAPL" d100 d02 None] in
  read "AAPL" (run h MarketData_ctor) = Ok (mkStock d100 d02 None) /\ nleb dm5 n0 = true /\
  accepts d90 d02 None = true /\
  let w := run (h ++ [OPrice "AAPL" dm5]) MarketData_ctor in
  res (step (OSigma "AAPL" d03) w) = Throw InvalidArgument /\
  res (step (OPrice "AAPL" d90) w) = Ok tt /\
  res (step (OSigma "AAPL" d03) (run (h ++ [OPrice "AAPL" dm5; OPrice "AAPL" d90]) MarketData_ctor)) = Ok tt.
Proof. repeat split. Qed.

(** ** C06 *)
Theorem C06_handle : forall T (num : Num T) (h1 h2 : list (op T)) t l,
  getStockData t (run h1 MarketData_ctor) = Ok l ->
  exists d, deref l (run h1 MarketData_ctor) = Ok d /\
            read t (run h1 MarketData_ctor) = Ok d /\
            deref l (run (h1 ++ h2) MarketData_ctor) = Ok (handle_after t d h2).
Proof. exact @market_handle. Qed.
Print Assumptions C06_handle.

Theorem C06_handle_is_live_view : forall T (num : Num T) (h1 h2 : list (op T)) t l,
  getStockData t (run h1 MarketData_ctor) = Ok l ->
  ~ (exists p s c, In (OAddStock t p s c) h2 /\ accepts p s c = true) ->
  deref l (run (h1 ++ h2) MarketData_ctor) = read t (run (h1 ++ h2) MarketData_ctor).
Proof. exact @handle_live_view. Qed.
Print Assumptions C06_handle_is_live_view.

Theorem C06_old_handle_frozen : forall T (num : Num T) (h1 h2 : list (op T)) t l p s c,
  getStockData t (run h1 MarketData_ctor) = Ok l -> accepts p s c = true ->
  deref l (run (h1 ++ OAddStock t p s c :: h2) MarketData_ctor) = deref l (run h1 MarketData_ctor) /\
  getStockData t (run (h1 ++ OAddStock t p s c :: h2) MarketData_ctor) <> Ok l.
Proof. exact @old_handle_frozen. Qed.
Print Assumptions C06_old_handle_frozen.

Example C06_ex : let h1 := [OAddStock "A" d100 d02 None] in
  getStockData "A" (run h1 MarketData_ctor) = Ok 0%nat /\
  deref 0 (run (h1 ++ [OPrice "A" d90]) MarketData_ctor) = Ok (mkStock d90 d02 None) /\
  deref 0 (run (h1 ++ [OPrice "A" d90; OAddStock "A" d100 d03 None; OPrice "A" d100]) MarketData_ctor)
    = Ok (mkStock d90 d02 None).
Proof. repeat split. Qed.

(** ** C07 *)
Theorem C07_update_notifies : forall T (num : Num T) (h : list (op T)) x t,
  (exists v, x = OPrice t v) \/ (exists v, x = OSigma t v) \/ (exists v, x = OCoupon t v) ->
  let w := run h MarketData_ctor in
  res (step x w) = Ok tt ->
  calls (step x w) = filter (fun o => alive_after h o && id_after h t o) (registrations 0 h).
Proof. exact @notified_by_update. Qed.
Print Assumptions C07_update_notifies.

Theorem C07_no_other_notification : forall T (num : Num T) (h : list (op T)) x,
  let w := run h MarketData_ctor in
  (forall e, res (step x w) = Throw e -> calls (step x w) = []) /\
  (forall t p s c, x = OAddStock t p s c -> calls (step x w) = []).
Proof. exact @no_other_notification. Qed.
Print Assumptions C07_no_other_notification.

(** Two options on A (one registered twice), one on B, one on A already destroyed. *)
Definition h_obs : list (op b64) :=
  [OAddStock "A" d100 d02 None;
   ONewObserver "A" true; OAddObserver 0; ONewObserver "B" true; OAddObserver 1;
   ONewObserver "A" true; OAddObserver 2; OAddObserver 0; ONewObserver "A" true; OAddObserver 3;
   ODrop 2].
Example C07_ex :
  calls (step (OPrice "A" d90) (run h_obs MarketData_ctor)) = [0; 0; 3]%nat /\
  res (step (OPrice "A" d90) (run h_obs MarketData_ctor)) = Ok tt.
Proof. split; reflexivity. Qed.

(** ** C08 *)
Theorem C08_rate_notifies_all : forall T (num : Num T) (h : list (op T)) r,
  let w := run h MarketData_ctor in
  calls (step (OSetR r) w) = filter (alive_after h) (registrations 0 h) /\
  getR (post (step (OSetR r) w)) = r /\ res (step (OSetR r) w) = Ok tt.
Proof. exact @notified_by_rate. Qed.
Print Assumptions C08_rate_notifies_all.

Example C08_ex : calls (step (OSetR d03) (run h_obs MarketData_ctor)) = [0; 1; 0; 3]%nat.
Proof. reflexivity. Qed.

(** ** C09 *)
Theorem C09_registry : forall T (num : Num T) (h : list (op T)),
  let w := run h MarketData_ctor in
  (forall o, In o (mWeak w) -> is_option_after h o = true -> alive_after h o = true) /\
  filter (alive_after h) (mWeak w) = filter (alive_after h) (registrations 0 h) /\
  ((forall o, In o (registrations 0 h) -> is_option_after h o = true) ->
     mWeak w = filter (alive_after h) (registrations 0 h)).
Proof.
  exact (fun T num h => conj (fun o => registry_no_dead_option h o)
                       (conj (registry_exact h) (registry_options h))).
Qed.
Print Assumptions C09_registry.

Example C09_ex : mWeak (run h_obs MarketData_ctor) = [0; 1; 0; 3]%nat /\
  mWeak (run (h_obs ++ [OShare 1; ODrop 1; ODrop 0]) MarketData_ctor) = [1; 3]%nat /\
  (forall o, In o (registrations 0 h_obs) -> is_option_after h_obs o = true).
Proof.
  repeat split. simpl. intros o [<-|[<-|[<-|[<-|[<-|[]]]]]]; reflexivity.
Qed.

(** ** C10 *)
Theorem C10_one_instance : forall l,
  ctors (sched l sys0) <= 1 /\
  (forall i v j v', In (i, v) (returned (sched l sys0)) -> In (j, v') (returned (sched l sys0)) ->
     v = v' /\ v <> None /\ ctors (sched l sys0) = 1).
Proof. exact singleton_once. Qed.
Print Assumptions C10_one_instance.

(** The value returned by two calls is the same also when they return at different
    times of one execution. *)
Theorem C10_same_instance_over_time : forall l l' i v j v',
  In (i, v) (returned (sched l sys0)) -> In (j, v') (returned (sched (l ++ l') sys0)) -> v = v'.
Proof. exact singleton_over_time. Qed.
Print Assumptions C10_same_instance_over_time.

(** No deadlock: every pending call can be completed by moving its thread and the
    current owner of the mutex. *)
Theorem C10_no_deadlock : forall l i, let s := sched l sys0 in
  at_ s i <> Idle ->
  exists l', (forall j, In j l' -> j = i \/ mutex s = Some j) /\
    at_ (sched l' s) i = Idle /\ exists v, In (i, v) (returned (sched l' s)) /\
    length (returned s) < length (returned (sched l' s)).
Proof. exact call_completes. Qed.
Print Assumptions C10_no_deadlock.

(** Three threads; 1 is blocked while 0 constructs; all end with object 0. *)
Example C10_ex : let s := sched [0;1;2;0;1;0;2;0;0;1;0;0;1;1;1;1;2;2;2;2] sys0 in
  returned s = [(2, Some 0); (1, Some 0); (0, Some 0)]%nat /\ ctors s = 1.
Proof. split; reflexivity. Qed.

(** ** C11 *)
Theorem C11_stock_equality :
  (forall d e : StockData b64,
     nan_free (S_ d) (sigma_ d) (c_ d) -> nan_free (S_ e) (sigma_ e) (c_ e) ->
     (stock_eqb d e = true <->
      val (S_ d) = val (S_ e) /\ val (sigma_ d) = val (sigma_ e) /\ same_coupon (c_ d) (c_ e))) /\
  (forall d : StockData b64, stock_eqb d d = true <-> nan_free (S_ d) (sigma_ d) (c_ d)) /\
  (forall d e : StockData b64, stock_eqb d e = stock_eqb e d) /\
  (forall d e f : StockData b64, stock_eqb d e = true -> stock_eqb e f = true -> stock_eqb d f = true) /\
  (forall d e : StockData b64, stock_neqb d e = negb (stock_eqb d e)).
Proof.
  exact (conj stock_eqb_numeric (conj stock_eqb_refl_iff (conj stock_eqb_sym
        (conj stock_eqb_trans (fun d e => eq_refl))))).
Qed.
Print Assumptions C11_stock_equality.

Example C11_ex : stock_eqb (mkStock d100 d02 (Some d03)) (mkStock d100 d02 (Some d03)) = true /\
  stock_eqb (mkStock d100 d02 (Some d03)) (mkStock d100 d02 None) = false /\
  stock_eqb (mkStock d100 d02 None) (mkStock d90 d02 None) = false.
Proof. repeat split; vm_compute; reflexivity. Qed.
