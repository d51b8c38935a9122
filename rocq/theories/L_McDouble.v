(** Monte Carlo pricers in binary64: what every result satisfies, and two runs on the same draws. *)
From Coq Require Import String List ZArith Bool Lia Reals Lra.
From Verif Require Import M_Num M_Outcome M_Dict M_Stock M_Market M_Payoff M_Option M_Random M_Model
  M_Regression M_MonteCarlo M_Builder S_Double S_Order L_B64 L_Order L_McScale.
Import ListNotations.
Local Open Scope R_scope.

(** ** A property of every value returned *)
Definition osure {A} (Q : A -> Prop) (o : outcome A) : Prop := match o with Ok a => Q a | _ => True end.
Definition sure {T A} (Q : A -> Prop) (m : SM T A) : Prop := forall g, osure Q (fst (m g)).
Lemma osure_bind : forall {A B} (P : A -> Prop) (Q : B -> Prop) o f, osure P o -> (forall a, P a -> osure Q (f a)) -> osure Q (bind o f).
Proof. intros A B P Q [a| |] f H F; cbn in *; auto. Qed.
Lemma osure_any : forall {A} (o : outcome A), osure (fun _ => True) o.
Proof. now intros A [a| |]. Qed.
Lemma osure_bind_any : forall {A B} (Q : B -> Prop) o (f : A -> outcome B), (forall a, osure Q (f a)) -> osure Q (bind o f).
Proof. intros A B Q [a| |] f F; cbn; auto. Qed.
Lemma sure_ret : forall {T A} (Q : A -> Prop) a, Q a -> @sure T A Q (sret a).
Proof. intros T A Q a H g. exact H. Qed.
Lemma sure_lift : forall {T A} (Q : A -> Prop) o, osure Q o -> @sure T A Q (slift o).
Proof. intros T A Q o H g. exact H. Qed.
Lemma sure_bind : forall {T A B} (P : A -> Prop) (Q : B -> Prop) (m : SM T A) f, sure P m -> (forall a, P a -> sure Q (f a)) -> sure Q (sbind m f).
Proof.
  intros T A B P Q m f H F g. specialize (H g). unfold sbind. destruct (m g) as [[a| |] h]; cbn in *; auto. now apply F.
Qed.
Lemma sure_bind_any : forall {T A B} (Q : B -> Prop) (m : SM T A) f, (forall a, sure Q (f a)) -> sure Q (sbind m f).
Proof. intros T A B Q m f F g. unfold sbind. destruct (m g) as [[a| |] h]; cbn; auto. now apply F. Qed.
Lemma sure_siter : forall {T A} (Q : A -> Prop) (body : Z -> A -> SM T A), (forall i a, Q a -> sure Q (body i a)) ->
  forall n i a, Q a -> sure Q (siter n i body a).
Proof.
  intros T A Q body B. induction n as [|n IH]; intros i a H; cbn [siter]; [now apply sure_ret|].
  apply (sure_bind Q); auto.
Qed.
Lemma sure_sfor : forall {T A} (Q : A -> Prop) (body : Z -> A -> SM T A), (forall i a, Q a -> sure Q (body i a)) ->
  forall n a, Q a -> sure Q (sfor_int n body a).
Proof.
  intros T A Q body B n a H. unfold sfor_int. destruct (n <=? INT_MAX)%Z; [now apply sure_siter|].
  apply sure_bind_any. intros _ g. exact I.
Qed.

Section Double.
Variables (fexp flog : b64 -> b64).
Hypothesis exp0 : forall x, nonneg (fexp x).
Local Instance dbl : Num b64 := B64 fexp flog.

Lemma payoff1_nonneg : forall p S, osure nonneg (payoff1 p S).
Proof.
  intros [ty K|ty K|KL KU|ty] S; cbn [payoff1 osure]; [| | |exact I].
  - destruct (PayoffType_eqb ty Call); apply max0_nonneg.
  - destruct (PayoffType_eqb ty Call); [destruct (nltb K S)|destruct (nltb S K)]; exact nonneg_0 || exact nonneg_1.
  - destruct (nleb KL S && nleb S KU); exact nonneg_0 || exact nonneg_1.
Qed.
Lemma payoff2_nonneg : forall p S e, osure nonneg (payoff2 p S e).
Proof. intros [ty K|ty K|KL KU|ty] S e; cbn [payoff2 osure]; try exact I. destruct (PayoffType_eqb ty Call); apply max0_nonneg. Qed.

Lemma mean_nonneg : forall s N df, (1 <= N)%Z -> nonneg s -> nonneg df -> nonneg (nmul (ndiv s (nofZ N)) df).
Proof.
  intros s N df L S D. destruct (ofZ_pos N L) as [A B]. apply mul_nonneg; [|exact D]. apply div_nonneg; [exact A| |exact S].
  eapply Rlt_le_trans; [exact Rlt_0_1|exact B].
Qed.

Variable env : Env b64.
Lemma single_nonneg : forall o w m wm N, (1 <= N)%Z -> sure nonneg (single_path_price env o w m wm N).
Proof.
  intros o w m wm N L. unfold single_path_price. apply (sure_bind nonneg).
  - apply sure_sfor; [|exact nonneg_0]. intros _ s S. apply sure_bind_any. intros x. apply (sure_bind nonneg).
    + apply sure_lift, payoff1_nonneg.
    + intros p P. apply sure_ret. now apply add_nonneg.
  - intros s S. apply sure_ret. apply mean_nonneg; [exact L|exact S|apply exp0].
Qed.
Lemma asian_nonneg : forall k o w m wm N, (1 <= N)%Z -> sure nonneg (asian_price env k o w m wm N).
Proof.
  intros k o w m wm N L g. unfold asian_price. refine (sure_bind nonneg nonneg _ _ _ _ g).
  - apply sure_siter; [|exact nonneg_0]. intros _ s S. apply sure_bind_any. intros x. apply sure_bind_any. intros y. apply (sure_bind nonneg).
    + apply sure_lift, payoff1_nonneg.
    + intros p P. apply sure_ret. now apply add_nonneg.
  - intros s S. apply sure_ret. apply mean_nonneg; [exact L|exact S|apply exp0].
Qed.
Lemma barrier_nonneg : forall k o w m wm N, (1 <= N)%Z -> sure nonneg (barrier_price env k o w m wm N).
Proof.
  intros k o w m wm N L g. unfold barrier_price. refine (sure_bind nonneg nonneg _ _ _ _ g).
  - apply sure_sfor; [|exact nonneg_0]. intros _ s S. do 3 (apply sure_bind_any; intros ?). apply (sure_bind nonneg).
    + apply sure_lift. unfold barrier_payoff. destruct k, a0; try apply payoff1_nonneg; exact nonneg_0.
    + intros p P. apply sure_ret. now apply add_nonneg.
  - intros s S. apply sure_ret. apply mean_nonneg; [exact L|exact S|apply exp0].
Qed.
Lemma lookback_nonneg : forall k o w m wm N, (1 <= N)%Z -> sure nonneg (lookback_price env k o w m wm N).
Proof.
  intros k o w m wm N L g. unfold lookback_price. refine (sure_bind nonneg nonneg _ _ _ _ g).
  - apply sure_sfor; [|exact nonneg_0]. intros _ s S. do 3 (apply sure_bind_any; intros ?). apply (sure_bind nonneg).
    + apply sure_lift. unfold lookback_payoff. destruct k; destruct (PayoffType_eqb _ _); first [apply payoff1_nonneg|apply payoff2_nonneg].
    + intros p P. apply sure_ret. now apply add_nonneg.
  - intros s S. apply sure_ret. apply mean_nonneg; [exact L|exact S|apply exp0].
Qed.

(** *** The American pricer *)
Variable la : LinAlg b64.
Lemma decide_nonneg : forall o df bases coeffs xs flags am idx, nonneg df -> Forall nonneg am ->
  osure (Forall nonneg) (decide o df bases coeffs idx xs flags am).
Proof.
  intros o df bases coeffs. induction xs as [|x xs IH]; intros flags am idx D A; [destruct flags, am; exact (Forall_nil _)|].
  destruct flags as [|[] fl]; [destruct am; exact (Forall_nil _)| |]; (destruct am as [|a am]; [exact (Forall_nil _)|]); inversion A; subst; cbn [decide].
  - apply (osure_bind nonneg); [apply payoff1_nonneg|]. intros e E. do 2 (apply osure_bind_any; intros ?).
    apply (osure_bind (Forall nonneg)); [now apply IH|]. intros l Hl. cbn [osure]. constructor; [|exact Hl].
    destruct (nltb _ _); [exact E|now apply mul_nonneg].
  - apply (osure_bind (Forall nonneg)); [now apply IH|]. intros l Hl. cbn [osure]. constructor; [now apply mul_nonneg|exact Hl].
Qed.
Lemma exercise_nonneg : forall o df b r xs am c, nonneg df -> Forall nonneg am ->
  osure (Forall nonneg) (exercise_or_continue la o df b r xs am c).
Proof.
  intros o df b r xs am [[itm cfs] flags] D A. unfold exercise_or_continue. destruct itm; [exact A|].
  do 2 (apply osure_bind_any; intros ?). now apply decide_nonneg.
Qed.
Lemma lsm_nonneg : forall o df b r paths n am, nonneg df -> Forall nonneg am -> osure (Forall nonneg) (lsm_down la o df b r paths n am).
Proof.
  intros o df b r paths. induction n as [|n IH]; intros am D A; cbn [lsm_down]; [exact A|].
  do 2 (apply osure_bind_any; intros ?). apply (osure_bind (Forall nonneg)); [now apply exercise_nonneg|]. intros l Hl. now apply IH.
Qed.
Lemma omap_nonneg : forall o l, osure (Forall nonneg) (omap (option_payoff1 o) l).
Proof.
  intros o. induction l as [|x l IH]; [exact (Forall_nil _)|]. cbn [omap].
  apply (osure_bind nonneg); [apply payoff1_nonneg|]. intros v V. apply (osure_bind (Forall nonneg)); [exact IH|]. intros vs VS. now constructor.
Qed.
Lemma sum_nonneg : forall l a, nonneg a -> Forall nonneg l -> nonneg (fold_left nadd l a).
Proof. induction l as [|x l IH]; intros a A L; cbn [fold_left]; [exact A|]. inversion L; subst. apply IH; [now apply add_nonneg|easy]. Qed.
Lemma vmean_nonneg : forall am, Forall nonneg am -> osure nonneg (mean am).
Proof.
  intros [|a am] A; [exact I|]. unfold mean. cbn [osure]. destruct (ofZ_pos (Z.of_nat (length (a :: am))) ltac:(cbn [length]; lia)) as [X Y].
  apply div_nonneg; [exact X|eapply Rlt_le_trans; [exact Rlt_0_1|exact Y]|]. apply sum_nonneg; [exact nonneg_0|exact A].
Qed.
Lemma bridge_down_nonneg : forall backward o df dt b r n xs am, nonneg df -> Forall nonneg am ->
  sure (Forall nonneg) (bridge_down la backward o df dt b r n xs am).
Proof.
  intros backward o df dt b r. induction n as [|n IH]; intros xs am D A; cbn [bridge_down]; [now apply sure_ret|].
  apply sure_bind_any. intros [ys c]. apply (sure_bind (Forall nonneg)); [now apply sure_lift, exercise_nonneg|]. intros am' A'. now apply IH.
Qed.
Lemma american_nonneg : forall o w m wm b r N, sure nonneg (american_price env la o w m wm b r N).
Proof.
  intros o w m wm b r N g. unfold american_price, american_price_with.
  assert (S1 : sure nonneg (standard_price env la o w m wm b r N)).
  { intros h. unfold standard_price. refine (sure_bind_any _ _ _ _ h). intros paths. apply sure_lift.
    apply osure_bind_any. intros last. apply (osure_bind (Forall nonneg)); [apply omap_nonneg|]. intros am A.
    apply (osure_bind (Forall nonneg)); [apply lsm_nonneg; [apply exp0|exact A]|]. intros am' A'.
    apply (osure_bind nonneg); [now apply vmean_nonneg|]. intros v V. apply mul_nonneg; [exact V|apply exp0]. }
  assert (S2 : forall bw, sure nonneg (bridge_price env la bw o w m wm b r N)).
  { intros bw h. unfold bridge_price. refine (sure_bind_any _ _ _ _ h). intros paths.
    apply (sure_bind (Forall nonneg)); [apply sure_lift, omap_nonneg|]. intros am A.
    apply (sure_bind (Forall nonneg)); [apply bridge_down_nonneg; [apply exp0|exact A]|]. intros am' A'.
    apply (sure_bind nonneg); [now apply sure_lift, vmean_nonneg|]. intros v V. apply sure_ret. apply mul_nonneg; [exact V|apply exp0]. }
  destruct (gQuasi g); [apply S1|]. destruct (mdKind m); first [apply S2|apply S1].
Qed.

(** ** Two runs on the same draws *)
Lemma price_below : forall N df s s', (1 <= N)%Z -> nonneg df -> below s s' ->
  below (nmul (ndiv s (nofZ N)) df) (nmul (ndiv s' (nofZ N)) df).
Proof.
  intros N df s s' L D H. destruct (ofZ_pos N L) as [X Y]. apply mul_below; [exact D|]. apply div_below; [exact X| |exact H].
  eapply Rlt_le_trans; [exact Rlt_0_1|exact Y].
Qed.

(** Payoffs of two options at two prices, in the same order. *)
Definition ordered (x y : outcome b64) : Prop :=
  match x, y with
  | Ok v, Ok v' => below v v'
  | Throw e, Throw e' => e = e'
  | UB, UB => True
  | _, _ => False
  end.
Lemma ordered_rel : forall x y, ordered x y -> @rel b64 _ _ below (slift x) (slift y).
Proof. intros [v| |] [v'| |] H g; split; cbn in *; auto. Qed.

Lemma below_refl : forall x, below x x.
Proof. intros x _ _. apply Rle_refl. Qed.

Section Strike.
Variables (o o' : Option b64).
Hypothesis T1 : optT o' = optT o.
Hypothesis K1 : optKind o' = optKind o.
Hypothesis B1 : optBarrier o' = optBarrier o.
Hypothesis Y1 : getPayoffType (optPayoff o') = getPayoffType (optPayoff o).
Hypothesis P1 : forall x, ordered (option_payoff1 o x) (option_payoff1 o' x).
Hypothesis P2 : forall x e, ordered (option_payoff2 o x e) (option_payoff2 o' x e).

Lemma rel_end_price : forall N df, (1 <= N)%Z -> nonneg df -> forall s s', below s s' ->
  @rel b64 _ _ below (sret (nmul (ndiv s (nofZ N)) df)) (sret (nmul (ndiv s' (nofZ N)) df)).
Proof. intros. apply rel_ret. now apply price_below. Qed.
Ltac summand := apply (rel_bind below); [apply ordered_rel|intros ? ? ?; apply rel_ret; now apply add_below].

Lemma single_rel : forall w m wm N, (1 <= N)%Z -> rel below (single_path_price env o w m wm N) (single_path_price env o' w m wm N).
Proof.
  intros w m wm N L. unfold single_path_price. rewrite T1. apply (rel_bind below); [|now apply rel_end_price; [|apply exp0]].
  apply rel_sfor; [|apply below_refl]. intros _ s s' S. apply rel_bind_same. intros x. summand. apply P1.
Qed.
Lemma asian_rel : forall k w m wm N, (1 <= N)%Z -> rel below (asian_price env k o w m wm N) (asian_price env k o' w m wm N).
Proof.
  intros k w m wm N L g. unfold asian_price. rewrite T1. refine (rel_bind below below _ _ _ _ _ _ g); [|now apply rel_end_price; [|apply exp0]].
  apply rel_siter; [|apply below_refl]. intros _ s s' S. do 2 (apply rel_bind_same; intros ?). summand. apply P1.
Qed.
Lemma crossed_same : forall k S n, barrier_crossed k o' S n = barrier_crossed k o S n.
Proof. intros k S n. unfold barrier_crossed, isActive. now rewrite B1, K1. Qed.
Lemma barrier_rel : forall k w m wm N, (1 <= N)%Z -> rel below (barrier_price env k o w m wm N) (barrier_price env k o' w m wm N).
Proof.
  intros k w m wm N L g. unfold barrier_price. rewrite T1. refine (rel_bind below below _ _ _ _ _ _ g); [|now apply rel_end_price; [|apply exp0]].
  apply rel_sfor; [|apply below_refl]. intros _ s s' S. apply rel_bind_same. intros p. rewrite crossed_same.
  do 2 (apply rel_bind_same; intros ?). summand. unfold barrier_payoff. destruct k, a; try apply P1; apply below_refl.
Qed.
Lemma lookback_rel : forall k w m wm N, (1 <= N)%Z -> rel below (lookback_price env k o w m wm N) (lookback_price env k o' w m wm N).
Proof.
  intros k w m wm N L g. unfold lookback_price. rewrite T1. refine (rel_bind below below _ _ _ _ _ _ g); [|now apply rel_end_price; [|apply exp0]].
  apply rel_sfor; [|apply below_refl]. intros _ s s' S. do 3 (apply rel_bind_same; intros ?). summand.
  unfold lookback_payoff. rewrite Y1. destruct k; destruct (PayoffType_eqb _ _); first [apply P1|apply P2].
Qed.
End Strike.

(** ** Two initial prices *)
Definition stock_below (d d' : StockData b64) : Prop :=
  below (S_ d) (S_ d') /\ sigma_ d' = sigma_ d /\ c_ d' = c_ d.
Definition path_below : list b64 -> list b64 -> Prop := Forall2 below.
Definition be2 (s s' : b64 * list b64) : Prop := below (fst s) (fst s') /\ path_below (snd s) (snd s').
Definition be3 (s s' : b64 * b64 * list b64) : Prop :=
  below (fst (fst s)) (fst (fst s')) /\ snd (fst s') = snd (fst s) /\ path_below (snd s) (snd s').
Lemma snoc_below : forall p p' x y, path_below p p' -> below x y -> path_below (p ++ [x]) (p' ++ [y]).
Proof. intros. apply Forall2_app; [easy|]. now constructor. Qed.
Lemma step_below : forall x y u, below x y -> below (nmul x (nexp u)) (nmul y (nexp u)).
Proof. intros. apply mul_below; [apply exp0|easy]. Qed.

Ltac bedone := apply rel_ret; unfold be2, be3 in *; cbn [fst snd] in *;
  repeat match goal with H : _ /\ _ |- _ => destruct H end; subst;
  repeat split; repeat (apply snoc_below || apply step_below); assumption || reflexivity.
Ltac body := repeat match goal with |- rel _ (sbind _ _) (sbind _ _) => apply rel_bind_same; intros ? end.
Lemma rel_path : forall {A} (RA : A -> A -> Prop) (f : A -> list b64) m1 m2, rel RA m1 m2 ->
  (forall x y, RA x y -> path_below (f x) (f y)) ->
  rel path_below (sbind m1 (fun s => sret (f s))) (@sbind b64 _ _ m2 (fun s => sret (f s))).
Proof. intros. apply (rel_bind RA); [easy|]. intros. apply rel_ret. auto. Qed.

Lemma kind_below : forall k (d d' : StockData b64) r t, stock_below d d' ->
  rel path_below (kind_prices env k d r t) (kind_prices env k d' r t).
Proof.
  intros k [S0 sg c] [S0' sg' c'] r t (E1 & E2 & E3). cbn [S_ sigma_ c_] in E1, E2, E3. subst. intros g.
  destruct k; cbn [kind_prices];
    unfold gbm_prices, heston_prices, bates_prices, kou_prices, merton_prices, vg_prices; cbv zeta;
    change (coupon (mkStock S0' sg c)) with (coupon (mkStock S0 sg c));
    unfold getPrice, getSigma; cbn [S_ sigma_];
    generalize (getDim g); intros steps; generalize (coupon (mkStock S0 sg c)); intros q.
  - refine (rel_bind_same _ _ _ _ _ g). intros sn.
    apply (rel_path be2); [|now intros x y [_ H]]. apply rel_sfor; [|split; [exact E1|constructor]].
    intros _ [S p] [S' p'] H. body. bedone.
  - refine (rel_bind_same _ _ _ _ _ g). intros sn.
    apply (rel_path be3); [|now intros x y (_ & _ & H)]. apply rel_sfor; [|split; [exact E1|split; [reflexivity|constructor]]].
    intros _ [[S V] p] [[S' V'] p'] (H1 & H2 & H3). cbn [fst snd] in H1, H2, H3. subst V'. body. bedone.
  - refine (rel_bind_same _ _ _ _ _ g). intros sn. do 2 (apply rel_bind_same; intros ?).
    apply (rel_path be3); [|now intros x y (_ & _ & H)]. apply rel_sfor; [|split; [exact E1|split; [reflexivity|constructor]]].
    intros _ [[S V] p] [[S' V'] p'] (H1 & H2 & H3). cbn [fst snd] in H1, H2, H3. subst V'.
    do 3 (apply rel_bind_same; intros ?).
    apply (rel_bind below).
    + apply rel_siter; [|now apply step_below].
      intros _ x y H. apply rel_bind_same. intros j. apply rel_ret. now apply step_below.
    + intros x y H. bedone.
  - refine (rel_bind_same _ _ _ _ _ g). intros sn. do 4 (apply rel_bind_same; intros ?).
    apply (rel_path be2); [|now intros x y [_ H]]. apply rel_sfor; [|split; [exact E1|constructor]].
    intros _ [S p0] [S' p0'] H. body. bedone.
  - refine (rel_bind_same _ _ _ _ _ g). intros sn. do 2 (apply rel_bind_same; intros ?).
    apply (rel_path be2); [|now intros x y [_ H]]. apply rel_sfor; [|split; [exact E1|constructor]].
    intros _ [S p] [S' p'] H. body. bedone.
  - refine (rel_bind_same _ _ _ _ _ g). intros sn. do 1 (apply rel_bind_same; intros ?).
    apply (rel_path be2); [|now intros x y [_ H]]. apply rel_sfor; [|split; [exact E1|constructor]].
    intros _ [S p] [S' p'] H. body. bedone.
Qed.

Lemma simulate_below : forall m (wm wm' : Market b64) d d' t,
  deref (mdStock m) wm = Ok d -> deref (mdStock m) wm' = Ok d' -> stock_below d d' -> getR wm' = getR wm ->
  rel path_below (simulatePrices env m wm t) (simulatePrices env m wm' t).
Proof.
  intros m wm wm' d d' t D D' H Hr. unfold simulatePrices, getR in *. rewrite D, D', Hr.
  apply (rel_bind stock_below); [intros g; now split|]. intros a b AB. now apply kind_below.
Qed.

Lemma nth_below : forall p p' i, path_below p p' ->
  match nth_error p i, nth_error p' i with Some x, Some y => below x y | None, None => True | _, _ => False end.
Proof.
  intros p p' i H. revert i. induction H as [|x y p p' X H IH]; intros [|i]; cbn; auto. apply IH.
Qed.
Definition orel {A B} (RA : A -> B -> Prop) (x : outcome A) (y : outcome B) : Prop :=
  match x, y with Ok a, Ok b => RA a b | Throw e, Throw e' => e = e' | UB, UB => True | _, _ => False end.
Lemma orel_bind : forall {A B C D} (RA : A -> B -> Prop) (RC : C -> D -> Prop) x y (f : A -> outcome C) (h : B -> outcome D),
  orel RA x y -> (forall a b, RA a b -> orel RC (f a) (h b)) -> orel RC (bind x f) (bind y h).
Proof. intros A B C D RA RC [a| |] [b| |] f h H F; cbn in *; try contradiction; auto. Qed.
Lemma orel_iter : forall {A B} (RA : A -> B -> Prop) f h, (forall i a b, RA a b -> orel RA (f i a) (h i b)) ->
  forall n i a b, RA a b -> orel RA (iter_from n i f a) (iter_from n i h b).
Proof.
  intros A B RA f h H. induction n as [|n IH]; intros i a b AB; cbn [iter_from]; [exact AB|]. apply (orel_bind RA); auto.
Qed.
Lemma orel_for : forall {A B} (RA : A -> B -> Prop) f h n a b, (forall i a b, RA a b -> orel RA (f i a) (h i b)) ->
  RA a b -> orel RA (for_int n f a) (for_int n h b).
Proof.
  intros A B RA f h n a b H AB. unfold for_int. destruct (n <=? INT_MAX)%Z; [now apply orel_iter|].
  apply (orel_bind RA); [now apply orel_iter|]. intros ? ? ?. exact I.
Qed.
Lemma orel_lift : forall {A B} (RA : A -> B -> Prop) x y, orel RA x y -> @rel b64 _ _ RA (slift x) (slift y).
Proof. intros A B RA x y H g. now split. Qed.
Lemma vget_below : forall p p' i, path_below p p' -> orel below (vget p i) (vget p' i).
Proof.
  intros p p' i H. unfold vget. destruct (i <? 0)%Z; [exact I|]. pose proof (nth_below p p' (Z.to_nat i) H) as X.
  destruct (nth_error p _), (nth_error p' _); try contradiction; exact X.
Qed.
Lemma rev_below : forall p p', path_below p p' -> path_below (rev p) (rev p').
Proof. intros p p' H. induction H as [|x y p p' X H IH]; [constructor|]. cbn [rev]. now apply snoc_below. Qed.
Lemma vback_below : forall p p', path_below p p' -> orel below (vback p) (vback p').
Proof.
  intros p p' H. unfold vback. destruct (rev_below p p' H) as [|x y l l' X _]; [exact I|exact X].
Qed.

Section Spot.
Variables (o : Option b64) (w w' : Market b64) (m : StockModel b64) (wm wm' : Market b64) (d d' : StockData b64) (side : bool).
Definition sided (x y : b64) : Prop := if side then below x y else below y x.
Hypothesis D : deref (mdStock m) wm = Ok d.
Hypothesis D' : deref (mdStock m) wm' = Ok d'.
Hypothesis SB : stock_below d d'.
Hypothesis RM : getR wm' = getR wm.
Hypothesis RP : getR w' = getR w.
Hypothesis PB : forall x y, below x y -> orel sided (option_payoff1 o x) (option_payoff1 o y).
Lemma sided_add : forall x x' y y', sided x y -> sided x' y' -> sided (nadd x x') (nadd y y').
Proof. unfold sided. intros. destruct side; now apply add_below. Qed.
Lemma sided_end : forall N df, (1 <= N)%Z -> nonneg df -> forall s s', sided s s' ->
  @rel b64 _ _ sided (sret (nmul (ndiv s (nofZ N)) df)) (sret (nmul (ndiv s' (nofZ N)) df)).
Proof. unfold sided. intros. apply rel_ret. destruct side; now apply price_below. Qed.
Lemma sided_refl : forall x, sided x x.
Proof. unfold sided. intros. destruct side; apply below_refl. Qed.
Ltac summand := apply (rel_bind sided); [apply orel_lift|intros ? ? ?; apply rel_ret; now apply sided_add].

Lemma single_spot : forall N, (1 <= N)%Z -> rel sided (single_path_price env o w m wm N) (single_path_price env o w' m wm' N).
Proof.
  intros N L. unfold single_path_price, discount_factor. rewrite RP. apply (rel_bind sided); [|now apply sided_end; [|apply exp0]].
  apply rel_sfor; [|apply sided_refl]. intros _ s s' S. unfold simulatePriceAtMaturity. apply (rel_bind below).
  - apply (rel_bind path_below); [now apply (simulate_below m wm wm' d d')|]. intros p p' P. now apply orel_lift, vback_below.
  - intros x y X. summand. now apply PB.
Qed.
Lemma arithmetic_spot : forall N g, (1 <= N)%Z -> (1 <= getDim g)%Z ->
  rel_out sided (asian_price env Arithmetic o w m wm N g) (asian_price env Arithmetic o w' m wm' N g).
Proof.
  intros N g L LD. unfold asian_price, discount_factor, getSteps. rewrite RP. refine (rel_bind sided sided _ _ _ _ _ _ g); [|now apply sided_end; [|apply exp0]].
  apply rel_siter; [|apply sided_refl]. intros _ s s' S. apply (rel_bind path_below); [now apply (simulate_below m wm wm' d d')|].
  intros p p' P. apply (rel_bind below).
  - apply orel_lift. unfold for_prices. apply (orel_bind (fun x y => below (fst x) (fst y) /\ snd x = snd y)).
    + apply orel_for; [|split; [apply below_refl|reflexivity]]. intros i [a st] [a' st'] [X1 X2]. cbn [fst snd] in X1, X2. subst st'.
      destruct st; [now split|]. apply (orel_bind below); [now apply vget_below|]. intros x y X. split; [|reflexivity]. now apply add_below.
    + intros a b [X _]. exact X.
  - intros x y X. summand. apply PB. destruct (ofZ_pos (getDim g) LD) as [A B]. apply div_below; [exact A| |exact X].
    eapply Rlt_le_trans; [exact Rlt_0_1|exact B].
Qed.
End Spot.
End Double.
