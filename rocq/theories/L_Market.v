From Coq Require Import String List ZArith Bool Lia Arith.
From Verif Require Import M_Num M_Outcome M_Dict M_Stock M_Market S_Market L_Dict L_Stock.
Import ListNotations.

Section Market.
Context {T : Type} {num : Num T}.
Implicit Types w : Market T.

(** ** The map part *)
Definition wf (w : Market T) : Prop :=
  (forall t l, dget t (mMap w) = Some l -> l < length (mHeap w)) /\
  (forall t t' l, dget t (mMap w) = Some l -> dget t' (mMap w) = Some l -> t = t').

Definition absm (w : Market T) (t : string) : option (StockData T) :=
  match dget t (mMap w) with Some l => nth_error (mHeap w) l | None => None end.

Lemma nth_error_lt : forall A (l : list A) i, i < length l -> exists x, nth_error l i = Some x.
Proof.
  intros A l i H. destruct (nth_error l i) eqn:E; eauto.
  apply nth_error_None in E. lia.
Qed.

Lemma wf_ctor : wf MarketData_ctor.
Proof. split; simpl; discriminate. Qed.

(** Effect of addStock. *)
Lemma addStock_wf : forall t p s c w, wf w -> wf (post (addStock t p s c w)).
Proof.
  intros t p s c w [W1 W2]. unfold addStock. rewrite ctor_accepts.
  destruct (accepts p s c); simpl; [|split; auto].
  split; simpl.
  - intros t' l. rewrite app_length; simpl. destruct (string_dec t' t) as [->|N].
    + rewrite dget_dset_same. intros E; injection E as <-. lia.
    + rewrite dget_dset_other by auto. intros E. apply W1 in E. lia.
  - intros t1 t2 l. destruct (string_dec t1 t) as [->|N1], (string_dec t2 t) as [->|N2]; auto.
    + rewrite dget_dset_same, dget_dset_other by auto. intros E1 E2. injection E1 as <-.
      apply W1 in E2. lia.
    + rewrite dget_dset_same, dget_dset_other by auto. intros E1 E2. injection E2 as <-.
      apply W1 in E1. lia.
    + rewrite !dget_dset_other by auto. apply W2.
Qed.

Lemma addStock_abs : forall t p s c w t', wf w ->
  absm (post (addStock t p s c w)) t' = stock_step t' (OAddStock t p s c) (absm w t').
Proof.
  intros t p s c w t' [W1 W2]. unfold addStock. rewrite ctor_accepts. simpl.
  destruct (accepts p s c); simpl.
  - unfold absm; simpl. destruct (String.eqb_spec t' t) as [->|N].
    + rewrite dget_dset_same. now rewrite nth_error_app2, Nat.sub_diag by lia.
    + rewrite dget_dset_other by auto. destruct (dget t' (mMap w)) eqn:E; auto.
      apply W1 in E. now rewrite nth_error_app1 by lia.
  - destruct (String.eqb t' t); auto.
Qed.

Lemma updateStock_wf : forall set t w, wf w -> wf (post (updateStock set t w)).
Proof.
  intros set t w [W1 W2]. unfold updateStock.
  destruct (dget t (mMap w)) eqn:E; simpl; [|split; auto].
  destruct (nth_error (mHeap w) n) as [d|]; simpl; [|split; auto].
  destruct (set d) as [d' r]. 
  assert (G : wf (with_heap w (lset n d' (mHeap w)))).
  { split; simpl; auto. intros t' l H. rewrite lset_length. eauto. }
  destruct r; simpl; auto.
Qed.

Lemma updateStock_abs : forall set t w t', wf w ->
  absm (post (updateStock set t w)) t' =
  if String.eqb t' t
  then match absm w t' with Some d => Some (fst (set d)) | None => None end
  else absm w t'.
Proof.
  intros set t w t' [W1 W2]. unfold updateStock, absm at 2 3.
  destruct (dget t (mMap w)) as [n|] eqn:E; simpl.
  - destruct (nth_error_lt _ _ _ (W1 _ _ E)) as [d D]. rewrite D.
    destruct (set d) as [d' r] eqn:Es.
    assert (G : absm (with_heap w (lset n d' (mHeap w))) t' =
      if String.eqb t' t then match (match dget t' (mMap w) with Some l => nth_error (mHeap w) l | None => None end)
         with Some d => Some (fst (set d)) | None => None end
      else match dget t' (mMap w) with Some l => nth_error (mHeap w) l | None => None end).
    { unfold absm; simpl. destruct (String.eqb_spec t' t) as [->|N].
      - rewrite E, D, Es. simpl. apply nth_lset_same. eauto.
      - destruct (dget t' (mMap w)) as [m|] eqn:F; auto. apply nth_lset_other.
        intros ->. apply N. eauto. }
    destruct r; simpl; exact G.
  - destruct (String.eqb_spec t' t) as [->|N]; unfold absm; [now rewrite E|easy].
Qed.

Lemma removeObserver_map : forall w, mMap (removeObserver w) = mMap w /\ mHeap (removeObserver w) = mHeap w /\ mR (removeObserver w) = mR w.
Proof. auto. Qed.

Lemma dropObserver_map : forall o w, mMap (dropObserver o w) = mMap w /\ mHeap (dropObserver o w) = mHeap w /\ mR (dropObserver o w) = mR w.
Proof.
  intros. unfold dropObserver. destruct (nth_error (mObj w) o); auto.
  destruct (oRefs o0); auto. destruct (_ && _); auto.
Qed.
Lemma shareObserver_map : forall o w, mMap (shareObserver o w) = mMap w /\ mHeap (shareObserver o w) = mHeap w /\ mR (shareObserver o w) = mR w.
Proof.
  intros. unfold shareObserver. destruct (nth_error (mObj w) o); auto.
  destruct (Nat.eqb _ _); auto.
Qed.

Lemma same_map_wf : forall w w', mMap w' = mMap w -> mHeap w' = mHeap w -> wf w -> wf w'.
Proof. intros w w' E1 E2 [W1 W2]. unfold wf. rewrite E1, E2. split; auto. Qed.
Lemma same_map_abs : forall w w' t, mMap w' = mMap w -> mHeap w' = mHeap w -> absm w' t = absm w t.
Proof. intros. unfold absm. now rewrite H, H0. Qed.

Lemma step_wf : forall x w, wf w -> wf (post (step x w)).
Proof.
  intros [] w W; simpl; auto.
  - apply addStock_wf, W.
  - apply updateStock_wf, W.
  - apply updateStock_wf, W.
  - apply updateStock_wf, W.
  - destruct (expired w o); auto.
  - eapply same_map_wf; [apply shareObserver_map..|exact W].
  - eapply same_map_wf; [apply dropObserver_map..|exact W].
Qed.

Lemma step_abs : forall x w t, wf w -> absm (post (step x w)) t = stock_step t x (absm w t).
Proof.
  intros [] w t' W; try reflexivity.
  - now apply addStock_abs.
  - simpl. unfold updateStockPrice. rewrite updateStock_abs by auto. simpl.
    destruct (String.eqb t' t), (absm w t'); auto.
  - simpl. unfold updateStockSigma. rewrite updateStock_abs by auto. simpl.
    destruct (String.eqb t' t), (absm w t'); auto.
  - simpl. unfold updateStockCoupon. rewrite updateStock_abs by auto. simpl.
    destruct (String.eqb t' t), (absm w t'); auto.
  - simpl. destruct (expired w o); auto.
  - apply same_map_abs; apply shareObserver_map.
  - apply same_map_abs; apply dropObserver_map.
Qed.

Lemma step_rate : forall x w, mR (post (step x w)) = match x with OSetR r => r | _ => mR w end.
Proof.
  intros [] w; simpl; auto; try apply dropObserver_map; try apply shareObserver_map.
  - unfold addStock. destruct (StockData_ctor _ _ _); auto.
  - unfold updateStockPrice, updateStock. destruct (dget _ _); auto. destruct (nth_error _ _); auto.
    simpl. destruct (validate _); auto.
  - unfold updateStockSigma, updateStock. destruct (dget _ _); auto. destruct (nth_error _ _); auto.
    simpl. destruct (validate _); auto.
  - unfold updateStockCoupon, updateStock. destruct (dget _ _); auto. destruct (nth_error _ _); auto.
    simpl. destruct (validate _); auto.
  - destruct (expired w o); auto.
Qed.

Lemma run_app : forall h1 h2 w, run (h1 ++ h2) w = run h2 (run h1 w).
Proof. induction h1; simpl; auto. Qed.

Lemma run_wf : forall h w, wf w -> wf (run h w).
Proof. induction h; simpl; auto using step_wf. Qed.

Lemma run_abs : forall h w t, wf w -> absm (run h w) t = stock_after t (absm w t) h.
Proof.
  induction h as [|x h IH]; intros w t W; simpl; auto.
  rewrite IH by now apply step_wf. now rewrite step_abs.
Qed.

Lemma run_rate : forall h w, mR (run h w) = rate_after (mR w) h.
Proof.
  induction h as [|x h IH]; intros w; simpl; auto. rewrite IH, step_rate.
  destruct x; auto.
Qed.

Lemma read_abs : forall w t, wf w -> read t w = as_read (absm w t).
Proof.
  intros w t [W1 W2]. unfold read, getStockData, absm, deref.
  destruct (dget t (mMap w)) eqn:E; simpl; auto.
  destruct (nth_error_lt _ _ _ (W1 _ _ E)) as [d D]. now rewrite D.
Qed.

Lemma updateStock_res : forall set t w, wf w ->
  res (updateStock set t w) =
  match absm w t with Some d => snd (set d) | None => Throw InvalidArgument end.
Proof.
  intros set t w [W1 W2]. unfold updateStock, absm.
  destruct (dget t (mMap w)) eqn:E; simpl; auto.
  destruct (nth_error_lt _ _ _ (W1 _ _ E)) as [d D]. rewrite D.
  destruct (set d) as [d' [[]| |]]; auto.
Qed.

Lemma step_res : forall x w, wf w -> res (step x w) = outcome_of x (absm w).
Proof.
  intros [] w W; try reflexivity; simpl.
  - unfold addStock. rewrite ctor_accepts. destruct (accepts S sigma c); auto.
  - unfold updateStockPrice. rewrite updateStock_res by auto. rewrite String.eqb_refl.
    destruct (absm w t); auto. simpl. now rewrite validate_accepts.
  - unfold updateStockSigma. rewrite updateStock_res by auto. rewrite String.eqb_refl.
    destruct (absm w t); auto. simpl. now rewrite validate_accepts.
  - unfold updateStockCoupon. rewrite updateStock_res by auto. rewrite String.eqb_refl.
    destruct (absm w t); auto. simpl. now rewrite validate_accepts.
Qed.

(** Main statements of the map part. *)
Lemma market_read : forall (h : list (op T)) t,
  read t (run h MarketData_ctor) = as_read (stock_after t None h).
Proof.
  intros. rewrite read_abs by apply run_wf, wf_ctor. now rewrite run_abs by apply wf_ctor.
Qed.

Lemma market_rate : forall (h : list (op T)), getR (run h MarketData_ctor) = rate_after (lit 5 2) h.
Proof. intros. unfold getR. now rewrite run_rate. Qed.

Lemma outcome_of_ext : forall (x : op T) f g, (forall t, f t = g t) -> outcome_of x f = outcome_of x g.
Proof. intros [] f g H; simpl; auto; now rewrite H. Qed.

Lemma market_outcome : forall (h : list (op T)) x,
  res (step x (run h MarketData_ctor)) = outcome_of x (fun t => stock_after t None h).
Proof.
  intros. rewrite step_res by apply run_wf, wf_ctor. apply outcome_of_ext.
  intros t. now rewrite run_abs by apply wf_ctor.
Qed.

(** getStockData throws exactly for tickers never successfully added. *)
Definition ever_added (t : string) (h : list (op T)) : Prop :=
  exists p s c, In (OAddStock t p s c) h /\ accepts p s c = true.

Lemma stock_after_some : forall h t d, stock_after t (Some d) h <> @None (StockData T).
Proof.
  induction h as [|x h IH]; intros t d; simpl; try discriminate.
  destruct x; simpl; auto; destruct (String.eqb t t0); auto. destruct (accepts _ _ _); auto.
Qed.

Lemma stock_after_none : forall h t, stock_after t None h = None <-> ~ ever_added t h.
Proof.
  induction h as [|x h IH]; intros t.
  - simpl. split; auto. intros _ (p & s & c & [] & _).
  - assert (O : stock_after t None (x :: h) = None <->
        (stock_after t None h = None /\ stock_step t x None = None)).
    { change (stock_after t None (x :: h)) with (stock_after t (stock_step t x None) h).
      destruct (stock_step t x None) eqn:E.
      - split; [intros H; now apply stock_after_some in H|intros [_ H]; discriminate].
      - tauto. }
    rewrite O, IH. unfold ever_added. split.
    + intros [H1 H2] (p & s & c & [->|H] & A); [|apply H1; eauto].
      simpl in H2. rewrite String.eqb_refl, A in H2. discriminate.
    + intros H. split.
      * intros (p & s & c & HH & A). apply H. exists p, s, c. simpl; auto.
      * destruct x; simpl; auto; try (destruct (String.eqb t t0); reflexivity).
        destruct (String.eqb_spec t t0) as [->|]; auto.
        destruct (accepts S sigma c) eqn:A; auto.
        exfalso. apply H. exists S, sigma, c. simpl; auto.
Qed.

Lemma unknown_ticker : forall (h : list (op T)) t,
  read t (run h MarketData_ctor) = Throw InvalidArgument <->
  ~ (exists p s c, In (OAddStock t p s c) h /\ accepts p s c = true).
Proof.
  intros h t. rewrite market_read. fold (ever_added t h). rewrite <- (stock_after_none h t).
  destruct (stock_after t None h); simpl; split; intros; congruence.
Qed.

(** ** Rejected calls *)
Lemma rejected_add : forall t p s c w e,
  res (addStock t p s c w) = Throw e -> post (addStock t p s c w) = w.
Proof.
  intros t p s c w e. unfold addStock. destruct (StockData_ctor _ _ _); simpl; auto; discriminate.
Qed.

Lemma unknown_update : forall x t w,
  (exists v, x = OPrice t v) \/ (exists v, x = OSigma t v) \/ (exists v, x = OCoupon t v) ->
  getStockData t w = Throw InvalidArgument ->
  res (step x w) = Throw InvalidArgument /\ post (step x w) = w /\ calls (step x w) = [].
Proof.
  intros x t w H G. unfold getStockData in G. destruct (dget t (mMap w)) eqn:E; [discriminate|].
  destruct H as [[v ->]|[[v ->]|[v ->]]]; simpl;
    unfold updateStockPrice, updateStockSigma, updateStockCoupon, updateStock; rewrite E; auto.
Qed.

Lemma throw_no_calls : forall x w e, res (step x w) = Throw e -> calls (step x w) = [].
Proof.
  intros [] w e; simpl; try discriminate; auto.
  - unfold addStock. destruct (StockData_ctor _ _ _); auto; discriminate.
  - unfold updateStockPrice, updateStock. destruct (dget _ _); auto. destruct (nth_error _ _); auto.
    simpl. destruct (validate _); auto; discriminate.
  - unfold updateStockSigma, updateStock. destruct (dget _ _); auto. destruct (nth_error _ _); auto.
    simpl. destruct (validate _); auto; discriminate.
  - unfold updateStockCoupon, updateStock. destruct (dget _ _); auto. destruct (nth_error _ _); auto.
    simpl. destruct (validate _); auto; discriminate.
Qed.

(** A rejected call leaves the rate, the other tickers, the set of tickers and the
    registry as they were. *)
Definition concerns (x : op T) : option string :=
  match x with
  | OAddStock t _ _ _ | OPrice t _ | OSigma t _ | OCoupon t _ => Some t
  | _ => None
  end.

Lemma rejected_others : forall h (x : op T) e t,
  let w := run h MarketData_ctor in
  res (step x w) = Throw e -> concerns x <> Some t ->
  read t (post (step x w)) = read t w.
Proof.
  intros h x e t w R C. assert (W : wf w) by apply run_wf, wf_ctor.
  rewrite !read_abs by auto using step_wf. rewrite step_abs by auto. f_equal.
  destruct x; simpl in *; auto; destruct (String.eqb_spec t t0); auto; congruence.
Qed.

Lemma rejected_registry : forall (x : op T) w e, res (step x w) = Throw e ->
  mWeak (post (step x w)) = mWeak w /\ mObj (post (step x w)) = mObj w /\
  mMap (post (step x w)) = mMap w /\ mR (post (step x w)) = mR w.
Proof.
  intros [] w e; simpl; try discriminate; auto.
  - unfold addStock. destruct (StockData_ctor _ _ _); auto; discriminate.
  - unfold updateStockPrice, updateStock. destruct (dget _ _); auto. destruct (nth_error _ _); auto.
    simpl. destruct (validate _); auto.
  - unfold updateStockSigma, updateStock. destruct (dget _ _); auto. destruct (nth_error _ _); auto.
    simpl. destruct (validate _); auto.
  - unfold updateStockCoupon, updateStock. destruct (dget _ _); auto. destruct (nth_error _ _); auto.
    simpl. destruct (validate _); auto.
Qed.

(** ** Handles *)
Lemma handle_detached : forall h l d w, wf w ->
  (forall t, dget t (mMap w) <> Some l) -> nth_error (mHeap w) l = Some d ->
  nth_error (mHeap (run h w)) l = Some d.
Proof.
  induction h as [|x h IH]; intros l d w W D N; simpl; auto.
  apply IH; [now apply step_wf| |]; destruct x; simpl; auto.
  - intros t'. unfold addStock. destruct (StockData_ctor S sigma c) eqn:E; simpl; auto.
    destruct (string_dec t' t) as [->|Q].
    + rewrite dget_dset_same. assert (l < length (mHeap w)) by (apply nth_error_Some; congruence).
      intros K; injection K as <-. lia.
    + rewrite dget_dset_other by auto. apply D.
  - intros t'. unfold updateStockPrice, updateStock. destruct (dget t (mMap w)) eqn:E; simpl; auto.
    destruct (nth_error (mHeap w) n); simpl; auto; destruct (validate _); simpl; auto.
  - intros t'. unfold updateStockSigma, updateStock. destruct (dget t (mMap w)) eqn:E; simpl; auto.
    destruct (nth_error (mHeap w) n); simpl; auto; destruct (validate _); simpl; auto.
  - intros t'. unfold updateStockCoupon, updateStock. destruct (dget t (mMap w)) eqn:E; simpl; auto.
    destruct (nth_error (mHeap w) n); simpl; auto; destruct (validate _); simpl; auto.
  - destruct (expired w o); auto.
  - intros t'. rewrite (proj1 (shareObserver_map o w)). auto.
  - intros t'. rewrite (proj1 (dropObserver_map o w)). auto.
  - unfold addStock. destruct (StockData_ctor S sigma c) eqn:E; simpl; auto.
    rewrite nth_error_app1; auto. apply nth_error_Some. congruence.
  - unfold updateStockPrice, updateStock. destruct (dget t (mMap w)) eqn:E; simpl; auto.
    assert (n <> l) by (intros ->; now apply (D t)).
    destruct (nth_error (mHeap w) n); simpl; auto; destruct (validate _); simpl; rewrite ?nth_lset_other; auto.
  - unfold updateStockSigma, updateStock. destruct (dget t (mMap w)) eqn:E; simpl; auto.
    assert (n <> l) by (intros ->; now apply (D t)).
    destruct (nth_error (mHeap w) n); simpl; auto; destruct (validate _); simpl; rewrite ?nth_lset_other; auto.
  - unfold updateStockCoupon, updateStock. destruct (dget t (mMap w)) eqn:E; simpl; auto.
    assert (n <> l) by (intros ->; now apply (D t)).
    destruct (nth_error (mHeap w) n); simpl; auto; destruct (validate _); simpl; rewrite ?nth_lset_other; auto.
  - destruct (expired w o); auto.
  - destruct (shareObserver_map o w) as (_ & -> & _). auto.
  - destruct (dropObserver_map o w) as (_ & -> & _). auto.
Qed.

(** While the ticker still maps to [l], a step other than an accepted addStock of [t]
    keeps the mapping and changes the object as the history of [t] says. *)
Lemma step_attached : forall x l t w, wf w -> dget t (mMap w) = Some l ->
  (forall p s c, x = OAddStock t p s c -> accepts p s c = false) ->
  dget t (mMap (post (step x w))) = Some l.
Proof.
  intros x l t w W D NA. destruct x; simpl; auto.
  - unfold addStock. rewrite ctor_accepts. destruct (accepts S sigma c) eqn:A; simpl; auto.
    rewrite dget_dset_other; auto. intros ->. rewrite (NA _ _ _ eq_refl) in A. discriminate.
  - unfold updateStockPrice, updateStock. destruct (dget t0 (mMap w)); simpl; auto.
    destruct (nth_error (mHeap w) n); simpl; auto; destruct (validate _); simpl; auto.
  - unfold updateStockSigma, updateStock. destruct (dget t0 (mMap w)); simpl; auto.
    destruct (nth_error (mHeap w) n); simpl; auto; destruct (validate _); simpl; auto.
  - unfold updateStockCoupon, updateStock. destruct (dget t0 (mMap w)); simpl; auto.
    destruct (nth_error (mHeap w) n); simpl; auto; destruct (validate _); simpl; auto.
  - destruct (expired w o); auto.
  - now rewrite (proj1 (shareObserver_map o w)).
  - now rewrite (proj1 (dropObserver_map o w)).
Qed.

Lemma add_detaches : forall t p s c l w, wf w -> dget t (mMap w) = Some l -> accepts p s c = true ->
  forall t', dget t' (mMap (post (addStock t p s c w))) <> Some l.
Proof.
  intros t p s c l w W D A t'. unfold addStock. rewrite ctor_accepts, A. simpl.
  destruct W as [W1 W2]. pose proof (W1 _ _ D).
  destruct (string_dec t' t) as [->|N].
  - rewrite dget_dset_same. intros K; injection K as <-. lia.
  - rewrite dget_dset_other by auto. intros K. apply N. eapply W2; eauto.
Qed.

Lemma add_keeps : forall t p s c l d w, nth_error (mHeap w) l = Some d ->
  nth_error (mHeap (post (addStock t p s c w))) l = Some d.
Proof.
  intros. unfold addStock. destruct (StockData_ctor p s c); simpl; auto.
  rewrite nth_error_app1; auto. apply nth_error_Some. congruence.
Qed.

Lemma handle_attached : forall h l t d w, wf w ->
  dget t (mMap w) = Some l -> nth_error (mHeap w) l = Some d ->
  nth_error (mHeap (run h w)) l = Some (handle_after t d h).
Proof.
  induction h as [|x h IH]; intros l t d w W D N; auto.
  assert (AB : absm w t = Some d) by (unfold absm; now rewrite D).
  assert (KEEP : forall d', (forall p s c, x = OAddStock t p s c -> accepts p s c = false) ->
    stock_step t x (Some d) = Some d' ->
    nth_error (mHeap (run (x :: h) w)) l = Some (handle_after t d' h)).
  { intros d' NA S. simpl. apply IH; [now apply step_wf|now apply step_attached|].
    pose proof (step_abs x w t W) as E. unfold absm at 1 in E.
    rewrite (step_attached x l t w W D NA) in E. rewrite E, AB. exact S. }
  destruct x.
  - cbn [handle_after]. destruct (String.eqb_spec t t0) as [<-|Q]; simpl andb.
    + destruct (accepts S sigma c) eqn:A.
      * change (nth_error (mHeap (run h (post (addStock t S sigma c w)))) l = Some d).
        apply handle_detached; [now apply addStock_wf|now apply add_detaches|now apply add_keeps].
      * apply KEEP. intros p s c' E; injection E as -> -> ->; auto. simpl.
        now rewrite String.eqb_refl, A.
    + apply KEEP; [intros p s c' E; injection E; intros; congruence|]. simpl.
      destruct (String.eqb_spec t t0); [contradiction|auto].
  - cbn [handle_after]. simpl stock_step. destruct (String.eqb t t0) eqn:E; apply KEEP; try discriminate; simpl; now rewrite E.
  - cbn [handle_after]. simpl stock_step. destruct (String.eqb t t0) eqn:E; apply KEEP; try discriminate; simpl; now rewrite E.
  - cbn [handle_after]. simpl stock_step. destruct (String.eqb t t0) eqn:E; apply KEEP; try discriminate; simpl; now rewrite E.
  - apply KEEP; auto; discriminate.
  - apply KEEP; auto; discriminate.
  - apply KEEP; auto; discriminate.
  - apply KEEP; auto; discriminate.
  - apply KEEP; auto; discriminate.
  - apply KEEP; auto; discriminate.
Qed.

Lemma market_handle : forall h1 h2 t l,
  getStockData t (run h1 MarketData_ctor) = Ok l ->
  exists d, deref l (run h1 MarketData_ctor) = Ok d /\
            read t (run h1 MarketData_ctor) = Ok d /\
            deref l (run (h1 ++ h2) MarketData_ctor) = Ok (handle_after t d h2).
Proof.
  intros h1 h2 t l G. set (w := run h1 MarketData_ctor) in *.
  assert (W : wf w) by apply run_wf, wf_ctor.
  unfold getStockData in G. destruct (dget t (mMap w)) eqn:E; [injection G as ->|discriminate].
  destruct (nth_error_lt _ _ _ (proj1 W _ _ E)) as [d D]. exists d.
  unfold read, deref, getStockData. rewrite E. simpl. unfold deref. rewrite D. repeat split; auto.
  rewrite run_app. fold w. now rewrite (handle_attached h2 l t d w W E D).
Qed.

(** As long as [t] is not replaced, the handle shows what getStockData(t) shows. *)
Definition replaced (t : string) (h : list (op T)) : Prop :=
  exists p s c, In (OAddStock t p s c) h /\ accepts p s c = true.

Lemma handle_follows : forall h t d, ~ replaced t h ->
  stock_after t (Some d) h = Some (handle_after t d h).
Proof.
  induction h as [|x h IH]; intros t d NR; auto.
  assert (NR' : ~ replaced t h).
  { intros (p & s & c & I & A). apply NR. exists p, s, c. simpl; auto. }
  change (stock_after t (Some d) (x :: h)) with (stock_after t (stock_step t x (Some d)) h).
  destruct x; cbn [handle_after]; simpl stock_step; try (now apply IH);
    destruct (String.eqb_spec t t0) as [<-|Q]; simpl andb; try (now apply IH).
  destruct (accepts S sigma c) eqn:A; [|now apply IH].
  exfalso. apply NR. exists S, sigma, c. simpl; auto.
Qed.

(** ** Notification *)
Lemma notify_filter : forall id w,
  notifyObserver id w = filter (fun o => live w o && has_id w id o) (mWeak w).
Proof.
  intros id w. unfold notifyObserver, live, has_id. induction (mWeak w) as [|o l IH]; simpl; auto.
  rewrite IH. destruct (nth_error (mObj w) o) as [[i [|n] b]|]; simpl; auto.
  destruct (String.eqb i id); auto.
Qed.
Lemma notify_all_filter : forall w, notifyObservers w = filter (live w) (mWeak w).
Proof.
  intros w. unfold notifyObservers, live. induction (mWeak w) as [|o l IH]; simpl; auto.
  rewrite IH. destruct (nth_error (mObj w) o) as [[i [|n] b]|]; simpl; auto.
Qed.

Lemma update_calls : forall set t w,
  res (updateStock set t w) = Ok tt ->
  calls (updateStock set t w) = filter (fun o => live w o && has_id w t o) (mWeak w).
Proof.
  intros set t w. unfold updateStock. destruct (dget t (mMap w)); simpl; try discriminate.
  destruct (nth_error (mHeap w) n); simpl; try discriminate.
  destruct (set s) as [d' [[]| |]]; simpl; try discriminate. intros _. now rewrite notify_filter.
Qed.

(** ** Observer lifetimes, by history *)
Definition obj_of (w : Market T) (o : nat) : option (string * nat * bool) :=
  match nth_error (mObj w) o with Some ob => Some (oID ob, oRefs ob, oIsOption ob) | None => None end.

Lemma step_obj : forall x w o,
  obj_of (post (step x w)) o = object_after o (length (mObj w)) (obj_of w o) [x].
Proof.
  intros x w o. destruct x; simpl; auto.
  - unfold addStock. destruct (StockData_ctor _ _ _); auto.
  - unfold updateStockPrice, updateStock. destruct (dget _ _); auto. destruct (nth_error _ _); auto.
    simpl. destruct (validate _); auto.
  - unfold updateStockSigma, updateStock. destruct (dget _ _); auto. destruct (nth_error _ _); auto.
    simpl. destruct (validate _); auto.
  - unfold updateStockCoupon, updateStock. destruct (dget _ _); auto. destruct (nth_error _ _); auto.
    simpl. destruct (validate _); auto.
  - unfold obj_of, newObserver; simpl. destruct (Nat.eqb_spec o (length (mObj w))) as [->|N].
    + now rewrite nth_error_app2, Nat.sub_diag by lia.
    + destruct (lt_dec o (length (mObj w))).
      * now rewrite nth_error_app1.
      * rewrite (proj2 (nth_error_None (mObj w) o)) by lia.
        rewrite (proj2 (nth_error_None _ o)); auto. rewrite app_length; simpl. lia.
  - destruct (expired w o0); auto.
  - unfold obj_of, shareObserver. destruct (Nat.eqb_spec o o0) as [<-|N].
    + destruct (nth_error (mObj w) o) as [[i [|n] b]|] eqn:E; simpl; rewrite ?E; auto.
      rewrite nth_lset_same; auto. apply nth_error_Some. congruence.
    + destruct (nth_error (mObj w) o0) as [[i [|n] b]|] eqn:E; simpl; auto.
      rewrite nth_lset_other; auto.
  - unfold obj_of, dropObserver. destruct (Nat.eqb_spec o o0) as [<-|N].
    + destruct (nth_error (mObj w) o) as [[i [|n] b]|] eqn:E; simpl; rewrite ?E; auto.
      destruct (Nat.eqb n 0 && b); simpl; rewrite nth_lset_same; auto; apply nth_error_Some; congruence.
    + destruct (nth_error (mObj w) o0) as [[i [|n] b]|] eqn:E; simpl; auto.
      destruct (Nat.eqb n 0 && b); simpl; rewrite nth_lset_other; auto.
Qed.

Lemma step_objs_length : forall (x : op T) w,
  length (mObj (post (step x w))) = length (mObj w) + created [x].
Proof.
  intros x w. destruct x; simpl; try lia.
  - unfold addStock. destruct (StockData_ctor _ _ _); simpl; lia.
  - unfold updateStockPrice, updateStock. destruct (dget _ _); simpl; try lia. destruct (nth_error _ _); simpl; try lia.
    destruct (validate _); simpl; lia.
  - unfold updateStockSigma, updateStock. destruct (dget _ _); simpl; try lia. destruct (nth_error _ _); simpl; try lia.
    destruct (validate _); simpl; lia.
  - unfold updateStockCoupon, updateStock. destruct (dget _ _); simpl; try lia. destruct (nth_error _ _); simpl; try lia.
    destruct (validate _); simpl; lia.
  - rewrite app_length; simpl; lia.
  - destruct (expired w o); simpl; lia.
  - unfold shareObserver. destruct (nth_error _ _); simpl; try lia. destruct (Nat.eqb _ _); simpl; rewrite ?lset_length; lia.
  - unfold dropObserver. destruct (nth_error _ _); simpl; try lia. destruct (oRefs o0); simpl; try lia.
    destruct (_ && _); simpl; rewrite ?lset_length; lia.
Qed.

Lemma object_after_cons : forall o n c (x : op T) h,
  object_after o n c (x :: h) = object_after o (n + created [x]) (object_after o n c [x]) h.
Proof. intros o n c [] h; simpl; rewrite ?Nat.add_0_r, ?Nat.add_1_r; auto. Qed.

Lemma run_obj : forall h w o,
  obj_of (run h w) o = object_after o (length (mObj w)) (obj_of w o) h.
Proof.
  induction h as [|x h IH]; intros w o; auto.
  rewrite object_after_cons. simpl run. rewrite IH, step_obj, step_objs_length. reflexivity.
Qed.

Lemma run_obj0 : forall (h : list (op T)) o, obj_of (run h MarketData_ctor) o = object_after o 0 None h.
Proof. intros. rewrite run_obj. simpl. f_equal. unfold obj_of. now destruct o. Qed.

Lemma live_after : forall (h : list (op T)) o, live (run h MarketData_ctor) o = alive_after h o.
Proof.
  intros. unfold alive_after. rewrite <- run_obj0. unfold live, obj_of.
  destruct (nth_error _ o) as [[i [|n] b]|]; auto.
Qed.
Lemma has_id_after : forall (h : list (op T)) id o, has_id (run h MarketData_ctor) id o = id_after h id o.
Proof.
  intros. unfold id_after. rewrite <- run_obj0. unfold has_id, obj_of.
  destruct (nth_error _ o) as [[i [|n] b]|]; auto.
Qed.

Lemma filter_filter_imp : forall A (f g : A -> bool) l,
  (forall x, In x l -> f x = true -> g x = true) -> filter f (filter g l) = filter f l.
Proof.
  intros A f g l. induction l as [|x l IH]; intros H; simpl; auto.
  destruct (g x) eqn:G; simpl.
  - rewrite IH; auto. intros; apply H; simpl; auto.
  - destruct (f x) eqn:F; [rewrite (H x) in G; simpl; auto; discriminate|].
    apply IH. intros; apply H; simpl; auto.
Qed.

(** Registry invariant: in range, no dead option, and what remains of the
    registrations requested so far. *)
Definition reg_inv (R : list nat) (w : Market T) : Prop :=
  (forall o, In o (mWeak w) -> o < length (mObj w)) /\
  (forall o, In o R -> o < length (mObj w)) /\
  (forall o ob, In o (mWeak w) -> nth_error (mObj w) o = Some ob -> oIsOption ob = true -> live w o = true) /\
  filter (live w) (mWeak w) = filter (live w) R.

Lemma reg_same : forall R w w', mWeak w' = mWeak w -> mObj w' = mObj w -> reg_inv R w -> reg_inv R w'.
Proof.
  intros R w w' E1 E2 (A & B & C & D). unfold reg_inv, live in *. rewrite E1, E2. auto.
Qed.

Lemma live_with_weak : forall w l o, live (with_weak w l) o = live w o.
Proof. reflexivity. Qed.

Lemma expired_live : forall w o, expired w o = negb (live w o).
Proof. intros. unfold expired, live. destruct (nth_error (mObj w) o) as [[i [|n] b]|]; auto. Qed.

Lemma filter_ext_in' : forall A (f g : A -> bool) l, (forall a, In a l -> f a = g a) -> filter f l = filter g l.
Proof.
  intros A f g l. induction l as [|x l IH]; intros H; simpl; auto.
  rewrite (H x) by (simpl; auto). rewrite IH; auto. intros; apply H; simpl; auto.
Qed.

(** Shrinking the set of live objects keeps the last clause. *)
Lemma filter_shrink : forall (f g : nat -> bool) l1 l2,
  (forall o, In o l1 \/ In o l2 -> f o = true -> g o = true) ->
  filter g l1 = filter g l2 -> filter f l1 = filter f l2.
Proof.
  intros f g l1 l2 H E.
  rewrite <- (filter_filter_imp _ f g l1), <- (filter_filter_imp _ f g l2) by (intros; apply H; auto).
  now rewrite E.
Qed.

Lemma removeObserver_inv : forall R w,
  (forall o, In o (mWeak w) -> o < length (mObj w)) ->
  (forall o, In o R -> o < length (mObj w)) ->
  filter (live w) (mWeak w) = filter (live w) R ->
  reg_inv R (removeObserver w).
Proof.
  intros R w A B D. unfold removeObserver. 
  assert (E : filter (fun o => negb (expired w o)) (mWeak w) = filter (live w) (mWeak w)).
  { apply filter_ext_in'. intros. now rewrite expired_live, negb_involutive. }
  rewrite E. repeat split; simpl.
  - intros o H. apply filter_In in H. apply A, H.
  - apply B.
  - intros o ob H _ _. apply filter_In in H. apply H.
  - change (filter (live w) (filter (live w) (mWeak w)) = filter (live w) R).
    rewrite filter_filter_imp; auto.
Qed.

Lemma step_reg : forall x w R, reg_inv R w ->
  reg_inv (R ++ registrations (length (mObj w)) [x]) (post (step x w)).
Proof.
  intros x w R I. destruct x; simpl registrations; rewrite ?app_nil_r.
  - eapply reg_same; [| |exact I]; simpl; unfold addStock; destruct (StockData_ctor _ _ _); auto.
  - eapply reg_same; [| |exact I]; simpl; unfold updateStockPrice, updateStock;
    destruct (dget _ _); auto; destruct (nth_error _ _); auto; simpl; destruct (validate _); auto.
  - eapply reg_same; [| |exact I]; simpl; unfold updateStockSigma, updateStock;
    destruct (dget _ _); auto; destruct (nth_error _ _); auto; simpl; destruct (validate _); auto.
  - eapply reg_same; [| |exact I]; simpl; unfold updateStockCoupon, updateStock;
    destruct (dget _ _); auto; destruct (nth_error _ _); auto; simpl; destruct (validate _); auto.
  - eapply reg_same; [| |exact I]; auto.
  - (* new observer *)
    destruct I as (A & B & C & D). simpl.
    assert (L : forall o, o < length (mObj w) -> live (newObserver id isOpt w) o = live w o).
    { intros o H. unfold live, newObserver; simpl. now rewrite nth_error_app1. }
    unfold reg_inv; simpl. rewrite app_length; simpl. repeat split.
    + intros o H. apply A in H. lia.
    + intros o H. apply B in H. lia.
    + intros o ob H. rewrite L by auto. rewrite nth_error_app1 by auto. now apply C.
    + rewrite (filter_ext_in' _ _ (live w) (mWeak w)) by auto.
      rewrite (filter_ext_in' _ _ (live w) R) by auto. auto.
  - (* addObserver *)
    destruct I as (A & B & C & D). simpl. rewrite expired_live.
    destruct (Nat.ltb_spec o (length (mObj w))) as [L|L].
    + destruct (live w o) eqn:V; simpl.
      * unfold reg_inv; simpl. repeat split.
        -- intros o' H. apply in_app_or in H as [H|[<-|[]]]; auto.
        -- intros o' H. apply in_app_or in H as [H|[<-|[]]]; auto.
        -- intros o' ob H N P. apply in_app_or in H as [H|[<-|[]]]; [|exact V]. now apply (C o' ob).
        -- rewrite !filter_app. f_equal; auto.
      * unfold reg_inv; repeat split; auto.
        -- intros o' H. apply in_app_or in H as [H|[<-|[]]]; auto.
        -- rewrite filter_app. simpl. rewrite V, app_nil_r. auto.
    + assert (V : live w o = false). { unfold live. now rewrite (proj2 (nth_error_None (mObj w) o)). }
      rewrite V. simpl. rewrite app_nil_r. unfold reg_inv; auto.
  - (* removeObserver *)
    destruct I as (A & B & C & D). simpl. now apply removeObserver_inv.
  - (* share *)
    destruct I as (A & B & C & D). simpl.
    assert (LL : length (mObj (shareObserver o w)) = length (mObj w)).
    { pose proof (step_objs_length (OShare o) w) as E. simpl in E. lia. }
    assert (W : mWeak (shareObserver o w) = mWeak w).
    { unfold shareObserver. destruct (nth_error _ _); auto. destruct (Nat.eqb _ _); auto. }
    assert (L : forall o', live (shareObserver o w) o' = live w o').
    { intros o'. pose proof (step_obj (OShare o) w o') as E. simpl in E.
      unfold live, obj_of in *. destruct (nth_error (mObj (shareObserver o w)) o') as [[i r b]|];
      destruct (nth_error (mObj w) o') as [[i' r' b']|]; destruct (Nat.eqb o' o); try discriminate; auto;
      try (destruct r'; try discriminate); simpl in E; try discriminate; injection E; intros; subst; auto. }
    assert (OP : forall o' ob, nth_error (mObj (shareObserver o w)) o' = Some ob ->
      exists ob', nth_error (mObj w) o' = Some ob' /\ oIsOption ob' = oIsOption ob).
    { intros o' ob N. pose proof (step_obj (OShare o) w o') as E. simpl in E.
      unfold obj_of in E. rewrite N in E. destruct (nth_error (mObj w) o') as [[i' r' b']|];
      destruct (Nat.eqb o' o); try discriminate; try (destruct r'; try discriminate);
      simpl in E; injection E; intros; subst; eexists; split; eauto. }
    unfold reg_inv. rewrite LL, W. repeat split; auto.
    + intros o' ob H N P. rewrite L. destruct (OP _ _ N) as (ob' & N' & E'). apply (C o' ob'); auto. congruence.
    + rewrite (filter_ext_in' _ _ (live w) (mWeak w)) by auto.
      rewrite (filter_ext_in' _ _ (live w) R) by auto. auto.
  - (* drop *)
    destruct I as (A & B & C & D). simpl. unfold dropObserver.
    destruct (nth_error (mObj w) o) as [[i [|n] b]|] eqn:N; simpl; try (unfold reg_inv; now auto).
    set (w' := with_obj w (lset o (mkObs i n b) (mObj w))).
    assert (LO : o < length (mObj w)) by (apply nth_error_Some; congruence).
    assert (LL : length (mObj w') = length (mObj w)) by (simpl; now rewrite lset_length).
    assert (L : forall o', live w' o' = true -> live w o' = true).
    { intros o'. unfold live, w'; simpl. destruct (Nat.eq_dec o o') as [<-|Q].
      - now rewrite N.
      - now rewrite nth_lset_other. }
    assert (DD : filter (live w') (mWeak w') = filter (live w') R).
    { simpl mWeak. apply (filter_shrink (live w') (live w)); auto. }
    destruct (Nat.eqb n 0 && b) eqn:E.
    + apply removeObserver_inv; auto; rewrite LL; auto.
    + unfold reg_inv. rewrite LL. repeat split; auto.
      intros o' ob H N' P. change (mWeak w') with (mWeak w) in H.
      destruct (Nat.eq_dec o o') as [<-|Q].
      * unfold w' in N'; simpl in N'. rewrite nth_lset_same in N' by auto. injection N' as <-. simpl in P.
        subst b. unfold live, w'; simpl. rewrite nth_lset_same by auto. simpl.
        destruct n; [discriminate|auto].
      * unfold w' in N'; simpl in N'. rewrite nth_lset_other in N' by auto.
        unfold live, w'; simpl. rewrite nth_lset_other by auto. now apply (C o' ob).
Qed.

Lemma registrations_cons : forall n (x : op T) h,
  registrations n (x :: h) = registrations n [x] ++ registrations (n + created [x]) h.
Proof.
  intros n [] h; simpl; rewrite ?Nat.add_0_r, ?Nat.add_1_r; auto.
  destruct (Nat.ltb o n); auto.
Qed.

Lemma run_reg : forall h w R, reg_inv R w ->
  reg_inv (R ++ registrations (length (mObj w)) h) (run h w).
Proof.
  induction h as [|x h IH]; intros w R I.
  - simpl. now rewrite app_nil_r.
  - rewrite registrations_cons, app_assoc. simpl run. rewrite <- step_objs_length.
    apply IH. now apply step_reg.
Qed.

Lemma run_reg0 : forall (h : list (op T)), reg_inv (registrations 0 h) (run h MarketData_ctor).
Proof.
  intros h. apply (run_reg h MarketData_ctor []). repeat split; simpl; intros; contradiction.
Qed.

(** Registry, by history. *)
Lemma registry_exact : forall (h : list (op T)),
  filter (alive_after h) (mWeak (run h MarketData_ctor)) = filter (alive_after h) (registrations 0 h).
Proof.
  intros h. destruct (run_reg0 h) as (_ & _ & _ & D).
  rewrite (filter_ext_in' _ (alive_after h) (live (run h MarketData_ctor)) (mWeak _))
    by (intros; symmetry; apply live_after).
  rewrite D. apply filter_ext_in'. intros. apply live_after.
Qed.

Lemma registry_no_dead_option : forall (h : list (op T)) o,
  In o (mWeak (run h MarketData_ctor)) -> is_option_after h o = true -> alive_after h o = true.
Proof.
  intros h o H P. destruct (run_reg0 h) as (_ & _ & C & _).
  rewrite <- live_after. unfold is_option_after in P. rewrite <- run_obj0 in P. unfold obj_of in P.
  destruct (nth_error (mObj (run h MarketData_ctor)) o) as [ob|] eqn:N; [|discriminate].
  now apply (C o ob).
Qed.

(** Only registered objects are in the registry. *)
Lemma step_weak : forall (x : op T) w o, In o (mWeak (post (step x w))) ->
  In o (mWeak w) \/ In o (registrations (length (mObj w)) [x]).
Proof.
  intros x w o. destruct x; simpl; auto.
  - unfold addStock. destruct (StockData_ctor _ _ _); auto.
  - unfold updateStockPrice, updateStock. destruct (dget _ _); auto. destruct (nth_error _ _); auto.
    simpl. destruct (validate _); auto.
  - unfold updateStockSigma, updateStock. destruct (dget _ _); auto. destruct (nth_error _ _); auto.
    simpl. destruct (validate _); auto.
  - unfold updateStockCoupon, updateStock. destruct (dget _ _); auto. destruct (nth_error _ _); auto.
    simpl. destruct (validate _); auto.
  - destruct (expired w o0) eqn:E; auto. simpl. intros H. apply in_app_or in H as [H|[<-|[]]]; auto.
    right. unfold expired in E. destruct (nth_error (mObj w) o0) eqn:N; [|discriminate].
    assert (o0 < length (mObj w)) by (apply nth_error_Some; congruence).
    apply Nat.ltb_lt in H. rewrite H. simpl; auto.
  - intros H. apply filter_In in H. left; apply H.
  - unfold shareObserver. destruct (nth_error _ _); auto. destruct (Nat.eqb _ _); auto.
  - unfold dropObserver. destruct (nth_error _ _); auto. destruct (oRefs o1); auto.
    destruct (_ && _); auto. simpl. intros H. apply filter_In in H. left; apply H.
Qed.

Lemma run_weak : forall h w o, In o (mWeak (run h w)) ->
  In o (mWeak w) \/ In o (registrations (length (mObj w)) h).
Proof.
  induction h as [|x h IH]; intros w o H; auto.
  rewrite registrations_cons, <- step_objs_length. simpl in H. apply IH in H as [H|H].
  - apply step_weak in H as [H|H]; auto. right. apply in_or_app. auto.
  - right. apply in_or_app. auto.
Qed.

Lemma registry_incl : forall (h : list (op T)) o, In o (mWeak (run h MarketData_ctor)) -> In o (registrations 0 h).
Proof. intros h o H. apply run_weak in H as [[]|H]. exact H. Qed.

(** If every observer is an Option the registry is exactly the live registrations. *)
Lemma registry_options : forall (h : list (op T)),
  (forall o, In o (registrations 0 h) -> is_option_after h o = true) ->
  mWeak (run h MarketData_ctor) = filter (alive_after h) (registrations 0 h).
Proof.
  intros h P. rewrite <- registry_exact.
  assert (F : forall l, (forall o, In o l -> alive_after h o = true) -> filter (alive_after h) l = l).
  { induction l as [|o l IH]; intros H; simpl; auto. rewrite H by (simpl; auto). f_equal. apply IH.
    intros; apply H; simpl; auto. }
  symmetry. apply F. intros o I. eapply registry_no_dead_option; eauto.
  apply P. now apply registry_incl.
Qed.

(** Notifications, by history. *)
Lemma notified_by_update : forall (h : list (op T)) x t,
  (exists v, x = OPrice t v) \/ (exists v, x = OSigma t v) \/ (exists v, x = OCoupon t v) ->
  let w := run h MarketData_ctor in
  res (step x w) = Ok tt ->
  calls (step x w) = filter (fun o => alive_after h o && id_after h t o) (registrations 0 h).
Proof.
  intros h x t X w R.
  assert (E : calls (step x w) = filter (fun o => live w o && has_id w t o) (mWeak w)).
  { destruct X as [[v ->]|[[v ->]|[v ->]]]; simpl in *; now apply update_calls. }
  rewrite E. unfold w.
  rewrite (filter_ext_in' _ _ (fun o => alive_after h o && id_after h t o)).
  2:{ intros. now rewrite live_after, has_id_after. }
  apply (filter_shrink _ (alive_after h)).
  - intros o _ H. apply andb_true_iff in H. apply H.
  - apply registry_exact.
Qed.

Lemma notified_by_rate : forall (h : list (op T)) r,
  let w := run h MarketData_ctor in
  calls (step (OSetR r) w) = filter (alive_after h) (registrations 0 h) /\
  getR (post (step (OSetR r) w)) = r /\ res (step (OSetR r) w) = Ok tt.
Proof.
  intros h r w. simpl. repeat split; auto. rewrite notify_all_filter. simpl.
  rewrite (filter_ext_in' _ _ (alive_after h)).
  2:{ intros. apply (live_after h). }
  apply registry_exact.
Qed.

Lemma notified_by_add : forall t p s c w, calls (addStock t p s c w) = [].
Proof. intros. unfold addStock. destruct (StockData_ctor _ _ _); auto. Qed.

Lemma no_other_notification : forall (h : list (op T)) x,
  let w := run h MarketData_ctor in
  (forall e, res (step x w) = Throw e -> calls (step x w) = []) /\
  (forall t p s c, x = OAddStock t p s c -> calls (step x w) = []).
Proof.
  intros h x w. split.
  - intros e. apply throw_no_calls.
  - intros t p s c ->. apply notified_by_add.
Qed.

(** ** Statements assembled for P_Market *)
Lemma rejected_partial : forall (h : list (op T)) x e,
  let w := run h MarketData_ctor in
  res (step x w) = Throw e ->
  calls (step x w) = [] /\
  getR (post (step x w)) = getR w /\
  mWeak (post (step x w)) = mWeak w /\ mObj (post (step x w)) = mObj w /\
  (forall t, isOk (read t (post (step x w))) = isOk (read t w)) /\
  (forall t, concerns x <> Some t -> read t (post (step x w)) = read t w) /\
  (forall t p s c, x = OAddStock t p s c -> post (step x w) = w) /\
  (forall t d, read t w = Ok d -> exists d', read t (post (step x w)) = Ok d' /\
     (sigma_ d' = sigma_ d \/ exists s, x = OSigma t s) /\
     (c_ d' = c_ d \/ exists c, x = OCoupon t c) /\
     (S_ d' = S_ d \/ exists p, x = OPrice t p)).
Proof.
  intros h x e w R. assert (W : wf w) by apply run_wf, wf_ctor.
  destruct (rejected_registry x w e R) as (R1 & R2 & R3 & R4).
  split; [now apply (throw_no_calls x w e)|]. split; [exact R4|]. split; [exact R1|]. split; [exact R2|].
  split.
  { intros t. unfold read, getStockData. rewrite R3. pose proof (step_wf x w W) as W'.
    destruct (dget t (mMap w)) as [l|] eqn:E; auto. unfold deref; simpl. unfold deref.
    destruct (nth_error_lt _ _ _ (proj1 W _ _ E)) as [d D]. rewrite D.
    rewrite <- R3 in E. destruct (nth_error_lt _ _ _ (proj1 W' _ _ E)) as [d' D']. now rewrite D'. }
  split; [intros t; now apply (rejected_others h x e t)|].
  split; [intros t p s c ->; now apply (rejected_add t p s c w e)|].
  intros t d D. rewrite read_abs in * by auto using step_wf. rewrite step_abs by auto.
  destruct (absm w t) as [d0|]; [|discriminate]. injection D as ->.
  destruct x; simpl stock_step; try (exists d; now auto);
    destruct (String.eqb_spec t t0) as [<-|N]; try (exists d; now auto).
  - simpl in R. unfold addStock in R. rewrite ctor_accepts in R.
    destruct (accepts S sigma c); [discriminate|]. exists d; auto.
  - eexists; split; [reflexivity|]. simpl. repeat split; eauto.
  - eexists; split; [reflexivity|]. simpl. repeat split; eauto.
  - eexists; split; [reflexivity|]. simpl. repeat split; eauto.
Qed.

Lemma update_succeeds_iff : forall (h : list (op T)) t d,
  let w := run h MarketData_ctor in
  read t w = Ok d ->
  (forall p, res (step (OPrice t p) w) = Ok tt <-> accepts p (sigma_ d) (c_ d) = true) /\
  (forall s, res (step (OSigma t s) w) = Ok tt <-> accepts (S_ d) s (c_ d) = true) /\
  (forall c, res (step (OCoupon t c) w) = Ok tt <-> accepts (S_ d) (sigma_ d) c = true).
Proof.
  intros h t d w D. assert (W : wf w) by apply run_wf, wf_ctor.
  rewrite read_abs in D by auto. destruct (absm w t) as [d0|] eqn:A; [|discriminate]. injection D as ->.
  repeat split; rewrite step_res by auto; unfold outcome_of; rewrite A; simpl stock_step;
    rewrite String.eqb_refl; simpl; destruct (accepts _ _ _); congruence.
Qed.

Lemma blocked_until_repaired : forall (h : list (op T)) t d p,
  read t (run h MarketData_ctor) = Ok d -> nleb p n0 = true ->
  let w := run (h ++ [OPrice t p]) MarketData_ctor in
  (forall s, res (step (OSigma t s) w) = Throw InvalidArgument) /\
  (forall c, res (step (OCoupon t c) w) = Throw InvalidArgument) /\
  (forall p', accepts p' (sigma_ d) (c_ d) = true -> res (step (OPrice t p') w) = Ok tt).
Proof.
  intros h t d p D P w. assert (W : wf w) by apply run_wf, wf_ctor.
  assert (A : absm w t = Some (mkStock p (sigma_ d) (c_ d))).
  { unfold w. rewrite run_app. cbn [run]. rewrite step_abs by apply run_wf, wf_ctor.
    rewrite read_abs in D by apply run_wf, wf_ctor.
    destruct (absm (run h MarketData_ctor) t) as [d0|]; [|discriminate]. injection D as ->.
    simpl. now rewrite String.eqb_refl. }
  assert (N : forall s c, accepts p s c = false) by (intros; unfold accepts; now rewrite P).
  repeat split; intros; rewrite step_res by auto; unfold outcome_of; rewrite A; simpl stock_step;
    rewrite String.eqb_refl; simpl; rewrite ?N; auto. now rewrite H.
Qed.

Lemma handle_live_view : forall (h1 h2 : list (op T)) t l,
  getStockData t (run h1 MarketData_ctor) = Ok l -> ~ replaced t h2 ->
  deref l (run (h1 ++ h2) MarketData_ctor) = read t (run (h1 ++ h2) MarketData_ctor).
Proof.
  intros h1 h2 t l G NR. destruct (market_handle h1 h2 t l G) as (d & _ & R & ->).
  rewrite read_abs in * by apply run_wf, wf_ctor. rewrite run_app, run_abs by apply run_wf, wf_ctor.
  destruct (absm (run h1 MarketData_ctor) t) as [d0|]; [|discriminate]. injection R as ->.
  now rewrite handle_follows.
Qed.

Lemma never_again : forall h l w, wf w -> l < length (mHeap w) ->
  (forall t, dget t (mMap w) <> Some l) ->
  (forall t, dget t (mMap (run h w)) <> Some l).
Proof.
  induction h as [|x h IH]; intros l w W L D t; auto. simpl. apply IH; [now apply step_wf| |].
  - destruct x; simpl; auto.
    + unfold addStock. destruct (StockData_ctor _ _ _); simpl; auto. rewrite app_length; simpl; lia.
    + unfold updateStockPrice, updateStock. destruct (dget _ _); auto. destruct (nth_error _ _); auto.
      simpl. destruct (validate _); simpl; rewrite ?lset_length; auto.
    + unfold updateStockSigma, updateStock. destruct (dget _ _); auto. destruct (nth_error _ _); auto.
      simpl. destruct (validate _); simpl; rewrite ?lset_length; auto.
    + unfold updateStockCoupon, updateStock. destruct (dget _ _); auto. destruct (nth_error _ _); auto.
      simpl. destruct (validate _); simpl; rewrite ?lset_length; auto.
    + destruct (expired w o); auto.
    + destruct (shareObserver_map o w) as (_ & -> & _). auto.
    + destruct (dropObserver_map o w) as (_ & -> & _). auto.
  - intros t'. destruct x; simpl; auto.
    + unfold addStock. destruct (StockData_ctor _ _ _); simpl; auto.
      destruct (string_dec t' t0) as [->|N].
      * rewrite dget_dset_same. intros E; injection E as <-. lia.
      * rewrite dget_dset_other by auto. apply D.
    + unfold updateStockPrice, updateStock. destruct (dget t0 _) eqn:E; auto. destruct (nth_error _ _); auto.
      simpl. destruct (validate _); simpl; auto.
    + unfold updateStockSigma, updateStock. destruct (dget t0 _) eqn:E; auto. destruct (nth_error _ _); auto.
      simpl. destruct (validate _); simpl; auto.
    + unfold updateStockCoupon, updateStock. destruct (dget t0 _) eqn:E; auto. destruct (nth_error _ _); auto.
      simpl. destruct (validate _); simpl; auto.
    + destruct (expired w o); auto.
    + rewrite (proj1 (shareObserver_map o w)). auto.
    + rewrite (proj1 (dropObserver_map o w)). auto.
Qed.

Lemma old_handle_frozen : forall (h1 h2 : list (op T)) t l p s c,
  getStockData t (run h1 MarketData_ctor) = Ok l -> accepts p s c = true ->
  deref l (run (h1 ++ OAddStock t p s c :: h2) MarketData_ctor) = deref l (run h1 MarketData_ctor) /\
  getStockData t (run (h1 ++ OAddStock t p s c :: h2) MarketData_ctor) <> Ok l.
Proof.
  intros h1 h2 t l p s c G A.
  destruct (market_handle h1 (OAddStock t p s c :: h2) t l G) as (d & D & _ & ->).
  split.
  - rewrite D. simpl. now rewrite String.eqb_refl, A.
  - set (w := run h1 MarketData_ctor) in *. assert (W : wf w) by apply run_wf, wf_ctor.
    unfold getStockData in *. destruct (dget t (mMap w)) eqn:E; [injection G as ->|discriminate].
    rewrite run_app. fold w. simpl run.
    pose proof (proj1 W _ _ E) as L.
    assert (N : dget t (mMap (run h2 (post (addStock t p s c w)))) <> Some l).
    { apply never_again; [now apply addStock_wf| |now apply add_detaches].
      unfold addStock. destruct (StockData_ctor p s c); simpl; auto. rewrite app_length; simpl; lia. }
    change (match dget t (mMap (run h2 (post (addStock t p s c w)))) with
            | Some l0 => Ok l0 | None => Throw InvalidArgument end <> Ok l).
    destruct (dget t (mMap (run h2 _))); congruence.
Qed.

End Market.
