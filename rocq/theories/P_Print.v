(** Properties C119-C121: what is printed. *)
From Coq Require Import String Ascii List ZArith Bool Lia.
From Verif Require Import M_Num M_Outcome M_Dict M_Stock M_Market M_Payoff M_Option M_Print
  S_Market S_Option L_Market L_Option P_Market P_Option.
Import ListNotations.
Local Open Scope string_scope.

(** ** Specification vocabulary *)
Definition NL : ascii := ascii_of_nat 10.
Definition chars : string -> list ascii := list_ascii_of_string.
(** A text of one line. *)
Definition one_line (s : string) : Prop := ~ In NL (chars s).
(** Lines as a text. *)
Fixpoint page (lines : list string) : string :=
  match lines with
  | [] => ""
  | l :: r => l ++ String NL (page r)
  end.

Definition class_name (k : OptionKind) : string :=
  "OptionPricer::" ++
  match k with
  | European => "European" | Digital => "Digital" | DoubleDigitalK => "DoubleDigital" | American => "American"
  | ArithmeticAsian => "ArithmeticAsian" | GeometricAsian => "GeometricAsian"
  | FixedLookback => "FixedStrikeLookback" | FloatingLookback => "FloatingStrikeLookback"
  | KnockIn => "KnockInBarrier" | KnockOut => "KnockOutBarrier"
  end ++ "Option".
Definition side_name (ty : PayoffType) : string :=
  match ty with Call => "Call" | Put => "Put" | DoubleDigital => "DoubleDigital" end.

Section Spec.
Context {T : Type}.
Variable fmt : T -> string.
(** The documented page of an option on a stock with data [d] when the rate is [r]. *)
Definition payoff_lines (p : Payoff T) : list string :=
  match p with
  | PVanilla ty K | PDigital ty K => ["  -> Type: " ++ side_name ty; "  -> Stike: " ++ fmt K]
  | PDoubleDigital KL KU => ["  -> Type: DoubleDigital"; "  -> Lower Strike: " ++ fmt KL; "  -> Upper Strike: " ++ fmt KU]
  | PFloating ty => ["  -> Type: " ++ side_name ty]
  end.
Definition stock_lines (d : StockData T) : list string :=
  ["  -> Price: " ++ fmt (S_ d); "  -> Volatility: " ++ fmt (sigma_ d)] ++
  match c_ d with Some c => ["  -> Coupon: " ++ fmt c] | None => [] end.
Definition option_lines (o : Option T) (d : StockData T) (r : T) : list string :=
  ["Option:"; "  -> Type: " ++ class_name (optKind o); "  -> Expiration: " ++ fmt (optT o) ++ " year"; "Payoff:"] ++
  payoff_lines (optPayoff o) ++
  ["Stock:"; "  -> Ticker: " ++ optTicker o] ++ stock_lines d ++
  ["MarketData:"; "  -> Risk Free Interest Rate: " ++ fmt r].

(** Payoffs of one class and side whose strikes print alike. *)
Definition payoffs_print_alike (p q : Payoff T) : Prop :=
  match p, q with
  | PVanilla ty K, PVanilla ty' K' | PDigital ty K, PDigital ty' K' => ty = ty' /\ fmt K = fmt K'
  | PDoubleDigital a b, PDoubleDigital a' b' => fmt a = fmt a' /\ fmt b = fmt b'
  | PFloating ty, PFloating ty' => ty = ty'
  | _, _ => False
  end.
(** Stock data that print alike. *)
Definition stocks_print_alike (d e : StockData T) : Prop :=
  fmt (S_ d) = fmt (S_ e) /\ fmt (sigma_ d) = fmt (sigma_ e) /\
  match c_ d, c_ e with
  | Some c, Some c' => fmt c = fmt c'
  | None, None => True
  | _, _ => False
  end.
End Spec.

(** ** Strings *)
Lemma app_nil : forall s : string, s ++ "" = s.
Proof. induction s as [|c s IH]; cbn; [reflexivity|now rewrite IH]. Qed.
Lemma app_assoc3 : forall a b c : string, (a ++ b) ++ c = a ++ b ++ c.
Proof. induction a as [|x a IH]; intros b c; cbn; [reflexivity|now rewrite IH]. Qed.
Lemma page_app : forall a b, page (a ++ b) = page a ++ page b.
Proof. induction a as [|x a IH]; intros b; cbn; [reflexivity|]. rewrite IH, app_assoc3. reflexivity. Qed.
Lemma chars_app : forall a b, chars (a ++ b) = (chars a ++ chars b)%list.
Proof. unfold chars. induction a as [|x a IH]; intros b; cbn; [reflexivity|now rewrite IH]. Qed.
Lemma chars_inj : forall a b, chars a = chars b -> a = b.
Proof. intros a b H. rewrite <- (string_of_list_ascii_of_string a), <- (string_of_list_ascii_of_string b). unfold chars in H. now rewrite H. Qed.
Lemma app_cancel : forall a b c : string, a ++ b = a ++ c -> b = c.
Proof. induction a as [|x a IH]; intros b c H; cbn in H; [exact H|]. injection H as H. now apply IH. Qed.
Lemma one_line_app : forall a b, one_line a -> one_line b -> one_line (a ++ b).
Proof. unfold one_line. intros a b A B. rewrite chars_app, in_app_iff. tauto. Qed.
Lemma app_cancel_r : forall a b c : string, a ++ c = b ++ c -> a = b.
Proof. intros a b c H. apply chars_inj. apply (f_equal chars) in H. rewrite !chars_app in H. now apply app_inv_tail in H. Qed.

Lemma cut_first : forall a a' r r', one_line a -> one_line a' -> a ++ String NL r = a' ++ String NL r' -> a = a' /\ r = r'.
Proof.
  induction a as [|x a IH]; intros [|y a'] r r' A A' H; cbn [append app] in H.
  - injection H as H. now split.
  - exfalso. apply A'. left. congruence.
  - exfalso. apply A. left. congruence.
  - injection H as H1 H2. destruct (IH a' r r') as [-> ->]; auto.
    + intros I. apply A. now right.
    + intros I. apply A'. now right.
    + split; [now subst|reflexivity].
Qed.
Lemma cut_first_chars : forall (a a' r r' : list ascii), ~ In NL a -> ~ In NL a' -> (a ++ NL :: r = a' ++ NL :: r')%list -> a = a' /\ r = r'.
Proof.
  induction a as [|x a IH]; intros [|y a'] r r' A A' H; cbn [append app] in H.
  - injection H as H. now split.
  - exfalso. apply A'. left. congruence.
  - exfalso. apply A. left. congruence.
  - injection H as H1 H2. destruct (IH a' r r') as [-> ->]; auto.
    + intros I. apply A. now right.
    + intros I. apply A'. now right.
    + split; [now subst|reflexivity].
Qed.
Lemma cut_last : forall a a' x x', one_line x -> one_line x' -> a ++ String NL x = a' ++ String NL x' -> a = a' /\ x = x'.
Proof.
  intros a a' x x' X X' H. apply (f_equal chars) in H. rewrite !chars_app in H.
  change (chars (String NL x)) with (NL :: chars x) in H. change (chars (String NL x')) with (NL :: chars x') in H.
  apply (f_equal (@rev ascii)) in H. rewrite !rev_app_distr in H. cbn [rev] in H. rewrite <- !app_assoc in H. cbn [app] in H.
  apply cut_first_chars in H; [|rewrite <- in_rev; assumption..]. destruct H as [H1 H2].
  apply (f_equal (@rev ascii)) in H1, H2. rewrite !rev_involutive in H1, H2. split; now apply chars_inj.
Qed.
(** The last lines of a text, whatever stands in front of them. *)
Fixpoint behind (t : string) (backwards : list string) : string :=
  match backwards with
  | [] => t
  | l :: r => behind t r ++ String NL l
  end.
Lemma behind_app : forall r t a, behind t (r ++ [a]) = behind (t ++ String NL a) r.
Proof. induction r as [|x r IH]; intros t a; cbn; [reflexivity|now rewrite IH]. Qed.
Lemma page_behind : forall ls t, t ++ String NL (page ls) = behind t (rev ls) ++ String NL "".
Proof.
  induction ls as [|l ls IH]; intros t; cbn [page rev behind]; [reflexivity|]. rewrite behind_app.
  change (String NL (l ++ String NL (page ls))) with (String NL l ++ String NL (page ls)). rewrite <- app_assoc3. apply IH.
Qed.

Lemma side_names : forall a b, side_name a = side_name b -> a = b.
Proof. intros [] [] H; (reflexivity || discriminate H). Qed.
Lemma class_names : forall a b, class_name a = class_name b -> a = b.
Proof. intros [] [] H; (reflexivity || discriminate H). Qed.
Ltac literal := let H := fresh in intros H; cbn in H; repeat (destruct H as [H|H]; [discriminate H|]); destruct H.
Lemma one_line_class : forall k, one_line (class_name k).
Proof. intros []; literal. Qed.
Lemma one_line_side : forall ty, one_line (side_name ty).
Proof. intros []; literal. Qed.

Section Print.
Context {T : Type} {num : Num T}.
Variable fmt : T -> string.
Hypothesis ONE : forall x, one_line (fmt x).

Lemma print_page : forall (o : Option T) w d, read (optTicker o) w = Ok d ->
  print_option fmt o w = (Ok tt, page (option_lines fmt o d (getR w))).
Proof.
  intros o w d R. unfold read, bind in R. unfold print_option. destruct (getStockData (optTicker o) w) as [l|e|]; try discriminate R. rewrite R.
  f_equal. unfold option_lines, print_stock, stock_lines.
  assert (C : option_getType (optKind o) = class_name (optKind o)) by (destruct (optKind o); reflexivity). rewrite C.
  assert (P : print_payoff fmt (optPayoff o) = page (payoff_lines fmt (optPayoff o))).
  { unfold print_payoff, print_payoff_type, payoff_lines. change PayoffTypeToString with side_name.
    destruct (optPayoff o) as [ty K|ty K|a b|ty]; cbn [page]; unfold nl; fold NL; rewrite ?app_assoc3; reflexivity. }
  rewrite P, !page_app. unfold nl. fold NL. cbn [page app]. destruct (c_ d) as [c|]; cbn [page app append]; repeat (rewrite app_assoc3; cbn [append]); reflexivity.
Qed.

Lemma print_ok : forall (o : Option T) w s, print_option fmt o w = (Ok tt, s) ->
  exists d, read (optTicker o) w = Ok d /\ s = page (option_lines fmt o d (getR w)).
Proof.
  intros o w s H. destruct (read (optTicker o) w) as [d|e|] eqn:R.
  - exists d. split; [reflexivity|]. rewrite (print_page o w d R) in H. now injection H.
  - exfalso. unfold read, bind in R. unfold print_option in H. destruct (getStockData _ w); [rewrite R in H| |]; discriminate H.
  - exfalso. unfold read, bind in R. unfold print_option in H. destruct (getStockData _ w); [rewrite R in H| |]; discriminate H.
Qed.
Lemma peel : forall a r a' r', one_line a -> one_line a' -> page (a :: r) = page (a' :: r') -> a = a' /\ page r = page r'.
Proof. intros a r a' r' A A' H. now apply cut_first. Qed.
Lemma label : forall (l x : string), one_line l -> one_line x -> one_line (l ++ x).
Proof. exact one_line_app. Qed.

Lemma stock_tail : forall t t' (d d' : StockData T) r r',
  page (t :: stock_lines fmt d ++ ["MarketData:"; "  -> Risk Free Interest Rate: " ++ fmt r]) =
  page (t' :: stock_lines fmt d' ++ ["MarketData:"; "  -> Risk Free Interest Rate: " ++ fmt r']) ->
  t = t' /\ stocks_print_alike fmt d d' /\ fmt r = fmt r'.
Proof.
  intros t t' d d' r r' H. cbn [page] in H. rewrite !page_behind in H. apply app_cancel_r in H. unfold stock_lines, stocks_print_alike in *.
  assert (LIT : forall l x, one_line l -> one_line (l ++ fmt x)) by (intros; apply label; auto).
  destruct (c_ d) as [c|], (c_ d') as [c'|]; cbn [app rev behind] in H;
    (apply cut_last in H; [|apply LIT; literal..]); destruct H as [H R]; apply app_cancel in R;
    (apply cut_last in H; [|literal..]); destruct H as [H _];
    (apply cut_last in H; [|apply LIT; literal..]); destruct H as [H A]; try discriminate A; apply app_cancel in A;
    (apply cut_last in H; [|apply LIT; literal..]); destruct H as [H B]; try discriminate B; apply app_cancel in B.
  - apply cut_last in H; [|apply LIT; literal..]. destruct H as [H C]. apply app_cancel in C. auto.
  - auto.
Qed.
End Print.

(** ** C119: the text of an option *)
(** An option some factory has made. *)
Definition made {T} {num : Num T} (o : Option T) : Prop :=
  exists k ty p w, (ty = Call \/ ty = Put) /\ res (createOption k ty p w) = Ok o.
Lemma made_payoff : forall T (num : Num T) (o : Option T), made o ->
  match optKind o, optPayoff o with
  | Digital, PDigital _ _ | DoubleDigitalK, PDoubleDigital _ _ | FloatingLookback, PFloating _ => True
  | (Digital | DoubleDigitalK | FloatingLookback), _ => False
  | _, PVanilla _ _ => True
  | _, _ => False
  end.
Proof.
  intros T num o (k & ty & p & w & TY & H). apply create_ok in H; [|exact TY]. destruct H as (-> & _ & _ & _ & _ & P & _).
  destruct k; cbn in P; [destruct P as (K & _ & _ & ->)|destruct P as (K & _ & _ & ->)|destruct P as (K & K' & _ & _ & _ & _ & ->)|
    destruct P as (K & _ & _ & ->)..|rewrite P| |]; try exact I; destruct P as (K & _ & _ & ->); exact I.
Qed.

(** Full statement: options that print alike are the same contract on the same market data.
    Printing tells everything except the barrier and its direction; numbers are told as far
    as their printed form goes, tickers completely, whatever characters they contain. *)
Theorem C119_partial : forall T (num : Num T) (fmt : T -> string), (forall x, one_line (fmt x)) ->
  forall (o o' : Option T) w w' s, made o -> made o' ->
  print_option fmt o w = (Ok tt, s) -> print_option fmt o' w' = (Ok tt, s) ->
  optKind o = optKind o' /\ optTicker o = optTicker o' /\ fmt (optT o) = fmt (optT o') /\
  payoffs_print_alike fmt (optPayoff o) (optPayoff o') /\ fmt (getR w) = fmt (getR w') /\
  exists d d', read (optTicker o) w = Ok d /\ read (optTicker o') w' = Ok d' /\ stocks_print_alike fmt d d'.
Proof.
  intros T num fmt ONE o o' w w' s M M' P P'. apply print_ok in P as (d & R & E). apply print_ok in P' as (d' & R' & E').
  rewrite E in E'. clear E s. unfold option_lines in E'. cbn [app] in E'.
  assert (LIT : forall l x, one_line l -> one_line (l ++ fmt x)) by (intros; apply label; auto).
  apply peel in E'; [|literal..]. destruct E' as [_ E'].
  apply peel in E'; [|apply label; [literal|apply one_line_class]..]. destruct E' as [K E']. apply app_cancel, class_names in K.
  apply peel in E'; [|apply label; [literal|apply label; [apply ONE|literal]]..]. destruct E' as [X E']. apply app_cancel, app_cancel_r in X.
  apply peel in E'; [|literal..]. destruct E' as [_ E'].
  apply made_payoff in M, M'. rewrite <- K in M'.
  assert (Q : payoffs_print_alike fmt (optPayoff o) (optPayoff o') /\
    page ("Stock:" :: ("  -> Ticker: " ++ optTicker o) :: stock_lines fmt d ++ ["MarketData:"; "  -> Risk Free Interest Rate: " ++ fmt (getR w)]) =
    page ("Stock:" :: ("  -> Ticker: " ++ optTicker o') :: stock_lines fmt d' ++ ["MarketData:"; "  -> Risk Free Interest Rate: " ++ fmt (getR w')])).
  { destruct (optPayoff o) as [ty A|ty A|A B|ty], (optPayoff o') as [ty' A'|ty' A'|A' B'|ty']; try (destruct (optKind o); now destruct M); try (destruct (optKind o); now destruct M');
      cbn [payoff_lines app payoffs_print_alike] in *.
    - apply peel in E'; [|apply label; [literal|apply one_line_side]..]. destruct E' as [U E']. apply app_cancel, side_names in U.
      apply peel in E'; [|apply LIT; literal..]. destruct E' as [V E']. apply app_cancel in V. auto.
    - apply peel in E'; [|apply label; [literal|apply one_line_side]..]. destruct E' as [U E']. apply app_cancel, side_names in U.
      apply peel in E'; [|apply LIT; literal..]. destruct E' as [V E']. apply app_cancel in V. auto.
    - apply peel in E'; [|literal..]. destruct E' as [_ E'].
      apply peel in E'; [|apply LIT; literal..]. destruct E' as [U E']. apply app_cancel in U.
      apply peel in E'; [|apply LIT; literal..]. destruct E' as [V E']. apply app_cancel in V. auto.
    - apply peel in E'; [|apply label; [literal|apply one_line_side]..]. destruct E' as [U E']. apply app_cancel, side_names in U. auto. }
  destruct Q as [Q E2]. clear E' M M'. apply peel in E2; [|literal..]. destruct E2 as [_ E2].
  apply stock_tail in E2; [|exact ONE]. destruct E2 as (TK & ST & RT). apply app_cancel in TK.
  repeat (split; [assumption|]). exists d, d'. auto.
Qed.
Print Assumptions C119_partial.

(** When the stream prints different numbers differently, the text of an option that is not a
    barrier option determines the contract and the market data. *)
Theorem C119_contract : forall T (num : Num T) (fmt : T -> string), (forall x, one_line (fmt x)) ->
  (forall x y, fmt x = fmt y -> x = y) ->
  forall (o o' : Option T) w w' s, made o -> made o' -> optKind o <> KnockIn -> optKind o <> KnockOut ->
  print_option fmt o w = (Ok tt, s) -> print_option fmt o' w' = (Ok tt, s) ->
  o' = mkOption (optKind o) (optTicker o) (optT o) (optPayoff o) (optBarrier o) (optObj o') /\
  getR w' = getR w /\ read (optTicker o') w' = read (optTicker o) w.
Proof.
  intros T num fmt ONE INJ o o' w w' s M M' NI NO P P'.
  destruct (C119_partial T num fmt ONE o o' w w' s M M' P P') as (K & TK & X & PA & R & d & d' & D & D' & ST).
  assert (NB : forall q : Option T, made q -> optKind q <> KnockIn -> optKind q <> KnockOut -> optBarrier q = None).
  { intros q (k & ty & p & v & TY & H) A B. apply create_ok in H; [|exact TY]. destruct H as (E & _ & _ & _ & _ & _ & H & _). rewrite E in A, B.
    destruct k; cbn in H; congruence. }
  pose proof (NB o M NI NO) as B. pose proof (NB o' M' ltac:(congruence) ltac:(congruence)) as B'.
  assert (PP : optPayoff o' = optPayoff o).
  { unfold payoffs_print_alike in PA. destruct (optPayoff o), (optPayoff o'); try contradiction;
      [destruct PA as [-> Q]; now rewrite (INJ _ _ Q)|destruct PA as [-> Q]; now rewrite (INJ _ _ Q)|destruct PA as [Q Q']; now rewrite (INJ _ _ Q), (INJ _ _ Q')|now rewrite PA]. }
  apply INJ in X, R. split; [|split].
  - destruct o' as [k' t' x' p' b' j']. cbn in *. rewrite B. subst. reflexivity.
  - now symmetry.
  - rewrite D, D'. f_equal. destruct ST as (S1 & S2 & S3). apply INJ in S1, S2. destruct d as [a b c], d' as [a' b' c']. cbn in *.
    destruct c as [c|], c' as [c'|]; try contradiction; [apply INJ in S3|]; subst; reflexivity.
Qed.
Print Assumptions C119_contract.

(** It does not determine a barrier option, however numbers are printed. *)
Theorem C119_refuted : exists a b w, res (createCallOption KnockIn (p_barrier d90 Down) w_aapl) = Ok a /\
  res (createCallOption KnockIn (p_barrier d100 Up) w_aapl) = Ok b /\ w = post (createCallOption KnockIn (p_barrier d90 Down) w_aapl) /\
  optBarrier a = Some (d90, Down) /\ optBarrier b = Some (d100, Up) /\
  forall fmt, fst (print_option fmt a w) = Ok tt /\ print_option fmt a w = print_option fmt b w.
Proof.
  do 3 eexists. split; [reflexivity|]. split; [reflexivity|]. split; [reflexivity|]. split; [reflexivity|]. split; [reflexivity|].
  intros fmt. split; reflexivity.
Qed.
Print Assumptions C119_refuted.

(** A digital put on a stock with a dividend; numbers printed as "#". *)
Example C119_ex : let w := run [OAddStock "AAPL" d100 d02 (Some d03)] MarketData_ctor in
  exists o, res (createPutOption Digital p_vanilla w) = Ok o /\ made o /\
    print_option (fun _ => "#") o (post (createPutOption Digital p_vanilla w)) =
    (Ok tt, page ["Option:"; "  -> Type: OptionPricer::DigitalOption"; "  -> Expiration: # year"; "Payoff:"; "  -> Type: Put"; "  -> Stike: #";
                  "Stock:"; "  -> Ticker: AAPL"; "  -> Price: #"; "  -> Volatility: #"; "  -> Coupon: #"; "MarketData:"; "  -> Risk Free Interest Rate: #"]).
Proof.
  intros w. eexists. split; [reflexivity|]. split; [|reflexivity].
  exists Digital, Put, p_vanilla, w. split; [now right|reflexivity].
Qed.

(** ** C120: printing an option never fails and shows the market of the moment *)
Theorem C120_print : forall T (num : Num T) (fmt : T -> string) (h1 h2 : list (op T)) k ty p o,
  let w := run h1 MarketData_ctor in
  res (createOption k ty p w) = Ok o ->
  let w' := run h2 (post (createOption k ty p w)) in
  exists d, stock_after (optTicker o) None (h1 ++ h2) = Some d /\
    print_option fmt o w' = (Ok tt, page (option_lines fmt o d (rate_after (lit 5 2) (h1 ++ h2)))).
Proof.
  intros T num fmt h1 h2 k ty p o w H w'.
  destruct (create_run k ty p w o H) as (E & _ & _).
  assert (RUN : w' = run (h1 ++ [ONewObserver (optTicker o) true; OAddObserver (optObj o)] ++ h2) MarketData_ctor).
  { rewrite !run_app. unfold w'. rewrite E. reflexivity. }
  pose proof (create_registry k ty p w o H) as (_ & _ & _ & RD & _).
  assert (EX : exists l, getStockData (optTicker o) w = Ok l).
  { unfold createOption in H. destruct (bind _ _) as [[o1 w1]|e|] eqn:B; try discriminate H. injection H as ->.
    apply bind_ok in B as (pay & _ & B). unfold createSpecificOption in B. apply bind_ok in B as (tk & _ & B). apply bind_ok in B as (x & _ & B).
    apply bind_ok in B as (bar & _ & B). apply bind_ok in B as (u & C & B). injection B as <- <-. cbn [optTicker].
    unfold Option_ctor_checks in C. destruct (nltb x n0); [discriminate C|]. destruct (getStockData tk w); [eauto|discriminate C..]. }
  assert (SA : forall h d, stock_after (optTicker o) d ([ONewObserver (optTicker o) true; OAddObserver (optObj o)] ++ h) = stock_after (optTicker o) d h) by reflexivity.
  assert (D : exists d, stock_after (optTicker o) None (h1 ++ h2) = Some d).
  { unfold stock_after. rewrite fold_left_app. fold (stock_after (optTicker o) None h1).
    pose proof (market_read h1 (optTicker o)) as MR. destruct (stock_after (optTicker o) None h1) as [d1|].
    - pose proof (stock_after_some h2 (optTicker o) d1) as N. unfold stock_after in N. destruct (fold_left _ h2 (Some d1)) as [d|]; [eauto|congruence].
    - exfalso. destruct EX as [l EX]. fold w in MR. unfold read, bind in MR. rewrite EX in MR. unfold deref in MR. destruct (nth_error (mHeap w) l); discriminate MR. }
  destruct D as [d D]. exists d. split; [exact D|].
  assert (RT : getR w' = rate_after (lit 5 2) (h1 ++ h2)).
  { rewrite RUN, market_rate. unfold rate_after. rewrite !fold_left_app. reflexivity. }
  rewrite <- RT. apply print_page. rewrite RUN, market_read. unfold stock_after in *. rewrite fold_left_app in *. fold (stock_after (optTicker o) None h1) in *.
  cbn [app fold_left stock_step]. rewrite D. reflexivity.
Qed.
Print Assumptions C120_print.

(** Created, then the price and the rate change, then printed. *)
Example C120_ex : let w := run [OAddStock "AAPL" d100 d02 None] MarketData_ctor in
  exists o, res (createCallOption European p_vanilla w) = Ok o /\
    stock_after "AAPL" None [OAddStock "AAPL" d100 d02 None; OPrice "AAPL" d90; OSetR d03] = Some (mkStock d90 d02 None) /\
    rate_after (lit 5 2) [OAddStock "AAPL" d100 d02 None; OPrice "AAPL" d90; OSetR d03] = d03.
Proof. intros w. eexists. repeat split. Qed.

(** ** C121: the help text of a failed creation *)
(** The parameters of a factory with the C++ names of their types. *)
Definition reads (k : OptionKind) : list (string * string) :=
  [("ticker", "string"); ("T", "double")] ++
  match k with
  | DoubleDigitalK => [("K1", "double"); ("K2", "double")]
  | FloatingLookback => []
  | KnockIn | KnockOut => [("K", "double"); ("B", "double"); ("direction", "BarrierDirection")]
  | _ => [("K", "double")]
  end.
(** The text has an entry for the parameter. *)
Definition entry (text name type : string) : Prop :=
  let e := "  - " ++ name ++ " (" ++ type ++ ") for" in exists i, substring i (String.length e) text = e.
Definition help (k : OptionKind) (ty : PayoffType) : string := invalidParams k (factory_getType k ty).

(** These are the parameters: a creation depends on no other one, and fails without any of
    them. *)
Theorem C121_reads : forall T (num : Num T) k ty (w : Market T), ty = Call \/ ty = Put ->
  (forall p p' : Params T, (forall n c, In (n, c) (reads k) -> dget n p = dget n p') -> createOption k ty p w = createOption k ty p' w) /\
  (forall (p : Params T) n c, In (n, c) (reads k) -> hasParameter n p = false -> res (createOption k ty p w) = Throw InvalidArgument).
Proof.
  intros T num k ty w TY. split.
  - intros p p' H. assert (D : forall n c, In (n, c) (reads k) -> getDouble n p = getDouble n p') by (intros n c I; unfold getDouble; now rewrite (H n c I)).
    assert (S : getString "ticker" p = getString "ticker" p') by (unfold getString; rewrite (H "ticker" "string"); [reflexivity|now left]).
    assert (X : getDouble "T" p = getDouble "T" p') by (apply (D "T" "double"); right; now left).
    assert (P : createSpecificPayoff k p ty = createSpecificPayoff k p' ty).
    { destruct k; cbn [createSpecificPayoff]; try reflexivity;
        try (rewrite (D "K" "double"); [reflexivity|cbn; tauto]). rewrite (D "K1" "double"), (D "K2" "double"); [reflexivity|cbn; tauto..]. }
    unfold createOption. rewrite P. assert (C : forall pay, createSpecificOption k p pay w = createSpecificOption k p' pay w).
    { intros pay. unfold createSpecificOption. rewrite S, X. destruct k; cbn [isBarrierKind]; try reflexivity;
        (assert (DD : getDir "direction" p = getDir "direction" p') by (unfold getDir; rewrite (H "direction" "BarrierDirection"); [reflexivity|cbn; tauto]);
         rewrite (D "B" "double"), DD; [reflexivity|cbn; tauto]). }
    destruct (createSpecificPayoff k p' ty) as [pay|e|]; cbn [bind]; [rewrite C|..]; reflexivity.
  - intros p n c I N. apply create_rejects; [exact TY|]. intros (o & _ & TK & _ & X & _ & P & B & _).
    assert (NO : dget n p = None) by (unfold hasParameter in N; destruct (dget n p); [discriminate N|reflexivity]).
    assert (GD : forall v, getDouble n p <> Ok v) by (intros v; unfold getDouble; rewrite NO; discriminate).
    assert (GS : forall v, getString n p <> Ok v) by (intros v; unfold getString; rewrite NO; discriminate).
    assert (GR : forall v, getDir n p <> Ok v) by (intros v; unfold getDir; rewrite NO; discriminate).
    cbn [reads app In] in I. destruct I as [I|[I|I]]; [injection I as <- _; now apply GS in TK|injection I as <- _; now apply GD in X|].
    destruct k; cbn in I, P, B; repeat match goal with Q : _ \/ _ |- _ => destruct Q as [Q|Q] end; try contradiction; injection I as <- _;
      repeat match goal with Q : exists _, _ |- _ => destruct Q as [? Q] | Q : _ /\ _ |- _ => destruct Q end;
      match goal with Q : getDouble _ p = Ok _ |- _ => exfalso; exact (GD _ Q) | Q : getDir _ p = Ok _ |- _ => exfalso; exact (GR _ Q) end.
Qed.
Print Assumptions C121_reads.

Lemma entry_yes : forall text name type i, index 0 ("  - " ++ name ++ " (" ++ type ++ ") for") text = Some i -> entry text name type.
Proof. intros text name type i H. exists i. now apply index_correct1 in H. Qed.
Lemma entry_no : forall text name type, index 0 ("  - " ++ name ++ " (" ++ type ++ ") for") text = None -> ~ entry text name type.
Proof. intros text name type H [i E]. refine (index_correct3 0 i _ _ H _ _ E); [discriminate|lia]. Qed.

(** Full statement: the help text has an entry for every parameter of the factory and for no
    other.  It has one for every parameter but the barrier and its direction ... *)
Theorem C121_partial : forall k ty n c, ty = Call \/ ty = Put -> In (n, c) (reads k) -> n <> "B" -> n <> "direction" -> entry (help k ty) n c.
Proof.
  intros k ty n c TY I NB ND. cbn [reads app In] in I.
  destruct TY as [-> | ->], k; cbn in I; repeat (destruct I as [I|I]; [injection I as <- <-; (congruence || (eapply entry_yes; vm_compute; reflexivity))|]); contradiction.
Qed.
Print Assumptions C121_partial.
(** ... and one for a strike, which a floating-strike lookback option does not have. *)
Theorem C121_refuted : forall ty, ty = Call \/ ty = Put ->
  (forall k, k = KnockIn \/ k = KnockOut -> In ("B", "double") (reads k) /\ ~ entry (help k ty) "B" "double" /\
     In ("direction", "BarrierDirection") (reads k) /\ forall c, In c ["BarrierDirection"; "string"; "int"; "double"] -> ~ entry (help k ty) "direction" c) /\
  (entry (help FloatingLookback ty) "K" "double" /\ ~ In ("K", "double") (reads FloatingLookback)).
Proof.
  intros ty TY. split.
  - intros k K. split; [destruct K as [-> | ->]; cbn; tauto|]. split; [|split; [destruct K as [-> | ->]; cbn; tauto|]].
    + apply entry_no. destruct TY as [-> | ->], K as [-> | ->]; vm_compute; reflexivity.
    + intros c C. apply entry_no. destruct TY as [-> | ->], K as [-> | ->]; repeat (destruct C as [<- |C]; [vm_compute; reflexivity|]); contradiction.
  - split; [destruct TY as [-> | ->]; eapply entry_yes; vm_compute; reflexivity|]. cbn. intros H. repeat (destruct H as [H|H]; [discriminate H|]). contradiction.
Qed.
Print Assumptions C121_refuted.
