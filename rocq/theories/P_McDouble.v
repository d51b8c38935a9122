(** Properties C100-C105: the Monte Carlo prices computed in binary64 keep the sign and the
    orders of exact arithmetic, whatever the rounding errors.  The only thing asked of the
    library's exp is that it returns no negative number; nothing is asked of log. *)
From Coq Require Import String List ZArith Bool Lia Reals Lra.
From Flocq Require Import Core BinarySingleNaN.
From Verif Require Import M_Num M_Outcome M_Dict M_Stock M_Market M_Payoff M_Option M_Random M_Model
  M_Regression M_MonteCarlo M_Builder S_Double S_Order S_MonteCarlo S_McPaths L_B64 L_Order L_MonteCarlo L_McScale L_McDouble L_McPaths L_McRound.
Import ListNotations.
Local Open Scope R_scope.

(** ** C100.  No Monte Carlo price is a negative number. *)
Theorem C100_never_negative : forall fexp flog env la P W N v, (forall x, nonneg (fexp x)) -> (1 <= N)%Z ->
  fst (@calculatePrice b64 (B64 fexp flog) env la P W N) = Ok v -> nonneg v.
Proof.
  intros fexp flog env la P W N v E L H. unfold calculatePrice in H.
  destruct (market_at W (pcMarket P)) as [w| |]; try discriminate.
  destruct (market_at W (Some (moMarket (pcModel P)))) as [wm| |]; try discriminate.
  destruct (nth_error (wGens W) (moGen (pcModel P))) as [g|]; try discriminate.
  match type of H with context [let (_, _) := ?run g in _] =>
    assert (S : sure nonneg run); [|specialize (S g); destruct (run g) as [res g']; cbn [fst] in *; now subst] end.
  destruct (pcClass P) as [|k|k|k|].
  - now apply single_nonneg.
  - now apply asian_nonneg.
  - now apply barrier_nonneg.
  - now apply lookback_nonneg.
  - destruct (pcBasis P), (pcRegression P); try (intros h; exact I). now apply american_nonneg.
Qed.
Print Assumptions C100_never_negative.

(** ** C101.  Order in the strike. *)
(** Both calls end alike, and values they return are in the relation. *)
Definition alike (rel : b64 -> b64 -> Prop) (x y : outcome b64) : Prop :=
  match x, y with
  | Ok v, Ok v' => rel v v'
  | Throw e, Throw e' => e = e'
  | UB, UB => True
  | _, _ => False
  end.
(** Two pricers without early exercise that differ in the strike only. *)
Definition strike_only (ty : PayoffType) (K K' : b64) (P Q : Pricer b64) : Prop :=
  pcClass P <> CAmerican /\ pcClass Q = pcClass P /\ pcMarket Q = pcMarket P /\ pcModel Q = pcModel P /\
  optT (pcOption Q) = optT (pcOption P) /\ optKind (pcOption Q) = optKind (pcOption P) /\
  optBarrier (pcOption Q) = optBarrier (pcOption P) /\
  optPayoff (pcOption P) = PVanilla ty K /\ optPayoff (pcOption Q) = PVanilla ty K'.

Lemma alike_class : forall fexp flog env la (P Q : Pricer b64) W N, (forall x, nonneg (fexp x)) -> (1 <= N)%Z ->
  pcClass P <> CAmerican -> pcClass Q = pcClass P -> pcMarket Q = pcMarket P -> pcModel Q = pcModel P ->
  optT (pcOption Q) = optT (pcOption P) -> optKind (pcOption Q) = optKind (pcOption P) ->
  optBarrier (pcOption Q) = optBarrier (pcOption P) ->
  getPayoffType (optPayoff (pcOption Q)) = getPayoffType (optPayoff (pcOption P)) ->
  (forall x, ordered (@option_payoff1 b64 (B64 fexp flog) (pcOption P) x) (@option_payoff1 b64 (B64 fexp flog) (pcOption Q) x)) ->
  (forall x e, ordered (@option_payoff2 b64 (B64 fexp flog) (pcOption P) x e) (@option_payoff2 b64 (B64 fexp flog) (pcOption Q) x e)) ->
  alike below (fst (@calculatePrice b64 (B64 fexp flog) env la P W N)) (fst (@calculatePrice b64 (B64 fexp flog) env la Q W N)).
Proof.
  intros fexp flog env la P Q W N E L NA C MK MO T1 K1 B1 Y1 P1 P2. unfold calculatePrice. rewrite C, MK, MO.
  destruct (market_at W (pcMarket P)) as [w| |]; try exact I.
  destruct (market_at W (Some (moMarket (pcModel P)))) as [wm| |]; try exact I.
  destruct (nth_error (wGens W) (moGen (pcModel P))) as [g|]; try exact I.
  pose proof (single_rel fexp flog E env _ _ T1 P1 w (moModel (pcModel P)) wm N L g) as R1.
  pose proof (fun k => asian_rel fexp flog E env _ _ T1 P1 k w (moModel (pcModel P)) wm N L g) as R2.
  pose proof (fun k => barrier_rel fexp flog E env _ _ T1 K1 B1 P1 k w (moModel (pcModel P)) wm N L g) as R3.
  pose proof (fun k => lookback_rel fexp flog E env _ _ T1 Y1 P1 P2 k w (moModel (pcModel P)) wm N L g) as R4.
  unfold dbl in *. destruct (pcClass P) as [|k|k|k|]; [|specialize (R2 k)|specialize (R3 k)|specialize (R4 k)|easy];
    match goal with X : rel_out below (?r g) (?r' g) |- context [let (_, _) := ?r g in _] =>
      destruct X as [_ X]; destruct (r g) as [x gx], (r' g) as [y gy]; exact X end.
Qed.

Lemma payoff_strike : forall fexp flog ty K K' x, notnan K -> notnan K' -> val K <= val K' ->
  match ty with
  | Call => ordered (@payoff1 b64 (B64 fexp flog) (PVanilla ty K') x) (@payoff1 b64 (B64 fexp flog) (PVanilla ty K) x)
  | _ => ordered (@payoff1 b64 (B64 fexp flog) (PVanilla ty K) x) (@payoff1 b64 (B64 fexp flog) (PVanilla ty K') x)
  end.
Proof.
  intros fexp flog ty K K' x N N' H.
  destruct ty; cbn [payoff1 PayoffType_eqb ordered]; apply max0_below, sub_below; (apply below_refl || (intros _ _; exact H)).
Qed.

Theorem C101_strike : forall fexp flog env la P Q W N ty K K', (forall x, nonneg (fexp x)) -> (1 <= N)%Z ->
  strike_only ty K K' P Q -> notnan K -> notnan K' -> val K <= val K' ->
  let price := fun X => fst (@calculatePrice b64 (B64 fexp flog) env la X W N) in
  match ty with
  | Call => alike below (price Q) (price P)
  | _ => alike below (price P) (price Q)
  end.
Proof.
  intros fexp flog env la P Q W N ty K K' E L (NA & C & MK & MO & T1 & K1 & B1 & P1 & P2) NK NK' H price.
  pose proof (fun x => payoff_strike fexp flog ty K K' x NK NK' H) as S. subst price. cbv beta.
  destruct ty; (apply alike_class;
    [exact E|exact L|congruence|congruence|congruence|congruence|congruence|congruence|congruence
    |rewrite P1, P2; reflexivity
    |intros x; unfold option_payoff1; rewrite P1, P2; apply S
    |intros x e; unfold option_payoff2; rewrite P1, P2; reflexivity]).
Qed.
Print Assumptions C101_strike.

(** ** C102.  Order in the spot. *)
(** The pricer finds the same rates and the same generator in both worlds; its model's stock
    is dearer in the second one and has the same volatility and coupon. *)
Definition spot_only (P : Pricer b64) (W W' : World b64) : Prop :=
  exists w w' wm wm' d d' g, lives_in P W w wm g /\ lives_in P W' w' wm' g /\ (1 <= getDim g)%Z /\
    getR w' = getR w /\ getR wm' = getR wm /\
    deref (mdStock (moModel (pcModel P))) wm = Ok d /\ deref (mdStock (moModel (pcModel P))) wm' = Ok d' /\
    notnan (S_ d) /\ notnan (S_ d') /\ val (S_ d) <= val (S_ d') /\ sigma_ d' = sigma_ d /\ c_ d' = c_ d.

Theorem C102_spot : forall fexp flog env la P W W' N ty K, (forall x, nonneg (fexp x)) -> (1 <= N)%Z ->
  pcClass P = CSinglePath \/ pcClass P = CAsian Arithmetic -> optPayoff (pcOption P) = PVanilla ty K ->
  spot_only P W W' ->
  let price := fun X => fst (@calculatePrice b64 (B64 fexp flog) env la P X N) in
  match ty with
  | Call => alike below (price W) (price W')
  | _ => alike below (price W') (price W)
  end.
Proof.
  intros fexp flog env la P W W' N ty K E L C PP (w & w' & wm & wm' & d & d' & g & (L1 & L2 & L3) & (L1' & L2' & L3') & G & R1 & R2 & D & D' & N1 & N2 & LS & SG & CC) price.
  set (side := match ty with Call => true | _ => false end).
  assert (A : alike (sided side) (price W) (price W')).
  { assert (SB : stock_below d d') by (repeat split; auto; now intros _ _).
    assert (PB : forall x y, below x y -> orel (sided side) (@option_payoff1 b64 (B64 fexp flog) (pcOption P) x) (@option_payoff1 b64 (B64 fexp flog) (pcOption P) y)).
    { intros x y X. unfold option_payoff1. rewrite PP. subst side.
      destruct ty; cbn [payoff1 PayoffType_eqb orel sided]; apply max0_below, sub_below; auto using below_refl. }
    pose proof (single_spot fexp flog E env (pcOption P) w w' _ wm wm' d d' side D D' SB R2 R1 PB N L g) as Q1.
    pose proof (arithmetic_spot fexp flog E env (pcOption P) w w' _ wm wm' d d' side D D' SB R2 R1 PB N g L G) as Q2.
    unfold dbl in *. subst price. cbv beta. unfold calculatePrice. rewrite L1, L2, L3, L1', L2', L3'.
    destruct C as [-> | ->];
    match goal with X : rel_out _ (?r g) (?r' g) |- context [let (_, _) := ?r g in _] =>
      destruct X as [_ X]; destruct (r g) as [x gx], (r' g) as [y gy]; exact X end. }
  unfold sided in A. subst side. destruct ty; [exact A| |]; unfold alike in *; destruct (price W), (price W'); auto.
Qed.
Print Assumptions C102_spot.

(** ** C103.  Barrier options in binary64. *)
Lemma omap_forall2 : forall {A B} (f : A -> outcome B) l vs, omap f l = Ok vs -> Forall2 (fun a v => f a = Ok v) l vs.
Proof.
  intros A B f. induction l as [|a l IH]; intros vs E; cbn [omap] in E; [injection E as <-; constructor|].
  destruct (f a) as [v| |] eqn:F; try discriminate. destruct (omap f l) as [w| |]; try discriminate. injection E as <-.
  constructor; auto.
Qed.
Lemma omap_all : forall {A B} (f : A -> outcome B) l, (forall a, exists b, f a = Ok b) -> exists vs, omap f l = Ok vs.
Proof.
  intros A B f l H. induction l as [|a l [vs IH]]; [now exists []|]. destruct (H a) as [b E]. exists (b :: vs). cbn [omap]. now rewrite E, IH.
Qed.
Lemma sums_below : forall l l' a a', Forall2 below l l' -> below a a' -> below (fold_left b64_add l a) (fold_left b64_add l' a').
Proof. intros l l' a a' H. revert a a'. induction H as [|x y l l' X H IH]; intros a a' A; cbn [fold_left]; [exact A|]. apply IH. now apply add_below. Qed.

Section Compare.
Variables (fexp flog : b64 -> b64) (env : Env b64) (la : LinAlg b64).
Hypothesis exp0 : forall x, nonneg (fexp x).
Local Instance dd : Num b64 := B64 fexp flog.

(** Two pricers on the same paths, the payoffs of the first below those of the second. *)
Lemma compare : forall P Q W w wm g N v, lives_in P W w wm g -> lives_in Q W w wm g -> pcModel Q = pcModel P ->
  optT (pcOption Q) = optT (pcOption P) -> pcClass P <> CAmerican -> pcClass Q <> CAmerican ->
  accepts (pcClass P) (optKind (pcOption P)) = true -> accepts (pcClass Q) (optKind (pcOption Q)) = true ->
  (forall k, pcClass P = CBarrier k -> exists b, optBarrier (pcOption P) = Some b) ->
  (forall k, pcClass Q = CBarrier k -> exists b, optBarrier (pcOption Q) = Some b) ->
  (1 <= getDim g)%Z -> (1 <= N <= INT_MAX)%Z ->
  (forall p, exists y, path_payoff (pcClass Q) (pcOption Q) p = Ok y) ->
  fst (calculatePrice env la P W N) = Ok v ->
  exists v', fst (calculatePrice env la Q W N) = Ok v' /\
    ((forall p x y, path_payoff (pcClass P) (pcOption P) p = Ok x -> path_payoff (pcClass Q) (pcOption Q) p = Ok y -> below x y) -> below v v') /\
    ((forall p x y, path_payoff (pcClass P) (pcOption P) p = Ok x -> path_payoff (pcClass Q) (pcOption Q) p = Ok y -> below y x) -> below v' v).
Proof.
  intros P Q W w wm g N v LP LQ M T NP NQ AP AQ BP BQ G LN TQ E.
  destruct (price_paths env la P W w wm g N v LP NP AP BP G E) as (paths & xs & g' & R & O & ->).
  destruct (omap_all (path_payoff (pcClass Q) (pcOption Q)) paths TQ) as [ys O'].
  exists (price_of N (discount_factor w (optT (pcOption Q))) ys).
  split; [apply (paths_price env la Q W w wm g N paths ys g'); auto; [lia|now rewrite M, T]|]. rewrite T.
  apply omap_forall2 in O. apply omap_forall2 in O'. split; intros H.
  - apply (price_below fexp flog); [lia|apply exp0|]. apply sums_below; [|apply below_refl].
    clear - O O' H. revert ys O'. induction O as [|p x ps xs X O IH]; intros ys O'; inversion O'; subst; constructor; eauto.
  - apply (price_below fexp flog); [lia|apply exp0|]. apply sums_below; [|apply below_refl].
    clear - O O' H. revert ys O'. induction O as [|p x ps xs X O IH]; intros ys O'; inversion O'; subst; constructor; eauto.
Qed.
End Compare.

(** The barrier pricer of a vanilla payoff. *)
Definition barrier_pricer (k : KnockKind) (ty : PayoffType) (K : b64) (b : b64 * BarrierDirection) (P : Pricer b64) : Prop :=
  pcClass P = CBarrier k /\ optKind (pcOption P) = (match k with KIn => KnockIn | KOut => KnockOut end) /\
  optPayoff (pcOption P) = PVanilla ty K /\ optBarrier (pcOption P) = Some b.
Definition european_pricer (ty : PayoffType) (K : b64) (P : Pricer b64) : Prop :=
  pcClass P = CSinglePath /\ optKind (pcOption P) = European /\ optPayoff (pcOption P) = PVanilla ty K.
Definition same_place (P Q : Pricer b64) : Prop :=
  pcMarket Q = pcMarket P /\ pcModel Q = pcModel P /\ optT (pcOption Q) = optT (pcOption P).

Lemma same_lives : forall P Q W w wm g, same_place P Q -> lives_in P W w wm g -> lives_in Q W w wm g.
Proof. intros P Q W w wm g (A & B & _) L. unfold lives_in in *. now rewrite A, B. Qed.

(** Neither barrier option costs more than the option without barrier. *)
Theorem C103_below_european : forall fexp flog env la P Q W w wm g N k ty K b v, (forall x, nonneg (fexp x)) ->
  barrier_pricer k ty K b P -> european_pricer ty K Q -> same_place P Q ->
  lives_in P W w wm g -> (1 <= getDim g)%Z -> (1 <= N <= INT_MAX)%Z ->
  fst (@calculatePrice b64 (B64 fexp flog) env la P W N) = Ok v ->
  exists v', fst (@calculatePrice b64 (B64 fexp flog) env la Q W N) = Ok v' /\ below v v'.
Proof.
  intros fexp flog env la P Q W w wm g N k ty K b v E (C & OK & PP & BB) (C' & OK' & PP') SP L G LN H.
  destruct (compare fexp flog env la E P Q W w wm g N v L (same_lives _ _ _ _ _ _ SP L)) as (v' & V & B & _).
  9: exact G. 9: exact LN. 10: exact H.
  - apply SP.
  - apply SP.
  - congruence.
  - congruence.
  - rewrite C, OK. now destruct k.
  - now rewrite C', OK'.
  - eauto.
  - intros k' X. congruence.
  - intros p. rewrite C'. cbn [path_payoff]. unfold option_payoff1. rewrite PP'. cbn [payoff1]. eauto.
  - exists v'. split; [exact V|]. apply B. intros p x y. rewrite C, C'. cbn [path_payoff]. rewrite BB.
    assert (NN : forall z, option_payoff1 (num := B64 fexp flog) (pcOption P) (final (num := B64 fexp flog) p) = Ok z -> nonneg z).
    { intros z Z. pose proof (payoff1_nonneg fexp flog (optPayoff (pcOption P)) (final (num := B64 fexp flog) p)) as Q1.
      unfold option_payoff1 in Z. unfold dbl in Q1. rewrite Z in Q1. exact Q1. }
    unfold dd, option_payoff1 in *. rewrite PP, PP' in *. intros X Y.
    destruct k, (existsb (beyond (num := B64 fexp flog) b) p); rewrite Y in X || idtac.
    all: try (injection X as <-; apply below_refl).
    all: injection X as <-; apply below_0; now apply NN.
Qed.
Print Assumptions C103_below_european.

(** Moving the barrier away from the prices makes the knock-in cheaper and the knock-out dearer. *)
Definition away (b b' : b64 * BarrierDirection) : Prop :=
  notnan (fst b) /\ notnan (fst b') /\ snd b' = snd b /\
  match snd b with Up => val (fst b) <= val (fst b') | Down => val (fst b') <= val (fst b) end.
Lemma away_beyond : forall fexp flog b b' p, away b b' ->
  existsb (beyond (num := B64 fexp flog) b') p = true -> existsb (beyond (num := B64 fexp flog) b) p = true.
Proof.
  intros fexp flog [B d] [B' d'] p (N & N' & D & H) X. cbn [fst snd] in *. subst d'. apply existsb_exists in X. destruct X as (x & I & X).
  apply existsb_exists. exists x. split; [exact I|]. destruct d; cbn [beyond nleb B64] in *; apply leb_true_iff in X; apply leb_true_iff;
    destruct X as (X1 & X2 & X3); repeat split; auto; lra.
Qed.
Theorem C103_barrier_level : forall fexp flog env la P Q W w wm g N k ty K b b' v, (forall x, nonneg (fexp x)) ->
  barrier_pricer k ty K b P -> barrier_pricer k ty K b' Q -> away b b' -> same_place P Q ->
  lives_in P W w wm g -> (1 <= getDim g)%Z -> (1 <= N <= INT_MAX)%Z ->
  fst (@calculatePrice b64 (B64 fexp flog) env la P W N) = Ok v ->
  exists v', fst (@calculatePrice b64 (B64 fexp flog) env la Q W N) = Ok v' /\
    match k with KIn => below v' v | KOut => below v v' end.
Proof.
  intros fexp flog env la P Q W w wm g N k ty K b b' v E (C & OK & PP & BB) (C' & OK' & PP' & BB') AW SP L G LN H.
  destruct (compare fexp flog env la E P Q W w wm g N v L (same_lives _ _ _ _ _ _ SP L)) as (v' & V & B1 & B2).
  9: exact G. 9: exact LN. 10: exact H.
  - apply SP.
  - apply SP.
  - congruence.
  - congruence.
  - rewrite C, OK. now destruct k.
  - rewrite C', OK'. now destruct k.
  - eauto.
  - eauto.
  - intros p. rewrite C'. cbn [path_payoff]. rewrite BB'. unfold option_payoff1. rewrite PP'. cbn [payoff1].
    destruct k, (existsb _ p); eauto.
  - exists v'. split; [exact V|].
    assert (NN : forall z p, option_payoff1 (num := B64 fexp flog) (pcOption P) (final (num := B64 fexp flog) p) = Ok z -> nonneg z).
    { intros z p Z. pose proof (payoff1_nonneg fexp flog (optPayoff (pcOption P)) (final (num := B64 fexp flog) p)) as Q1.
      unfold option_payoff1 in Z. unfold dbl in Q1. rewrite Z in Q1. exact Q1. }
    pose proof (fun p => away_beyond fexp flog b b' p AW) as AB.
    destruct k; [apply B2|apply B1]; intros p x y; rewrite C, C'; cbn [path_payoff]; rewrite BB, BB'; specialize (AB p); specialize (fun z => NN z p);
      unfold dd, option_payoff1 in *; rewrite PP, PP' in *;
      destruct (existsb (beyond (num := B64 fexp flog) b') p), (existsb (beyond (num := B64 fexp flog) b) p);
      try (specialize (AB eq_refl); discriminate); intros X Y;
      first [rewrite X in Y; injection Y as <-; apply below_refl
            |injection Y as <-; apply below_0; now apply NN
            |injection X as <-; apply below_0; now apply NN].
Qed.
Print Assumptions C103_barrier_level.

(** ** C104.  How far rounding moves the price. *)
Theorem C104_rounding : forall fexp flog env la P W w wm g N v, (forall x, nonneg (fexp x)) ->
  lives_in P W w wm g -> pcClass P <> CAmerican -> accepts (pcClass P) (optKind (pcOption P)) = true ->
  (forall k, pcClass P = CBarrier k -> exists b, optBarrier (pcOption P) = Some b) ->
  (1 <= getDim g)%Z -> (1 <= N <= INT_MAX)%Z ->
  fst (@calculatePrice b64 (B64 fexp flog) env la P W N) = Ok v -> finite v ->
  exists paths payoffs g',
    runs (@simulatePrices b64 (B64 fexp flog) env (moModel (pcModel P)) wm (optT (pcOption P))) (Z.to_nat N) g = (Ok paths, g') /\
    Forall2 (fun p x => path_payoff (num := B64 fexp flog) (pcClass P) (pcOption P) p = Ok x /\ finite x /\ 0 <= val x) paths payoffs /\
    let df := fexp (b64_mul (b64_opp (getR w)) (optT (pcOption P))) in
    let exact := val df * Rmean (map val payoffs) in
    finite df /\
    Rabs (val v - exact) <= IZR (N + 1) * bpow radix2 (-52) * exact + bpow radix2 (-1074) * (1 + val df).
Proof.
  intros fexp flog env la P W w wm g N v E L NA A HB G LN H F.
  destruct (@price_paths b64 (B64 fexp flog) env la P W w wm g N v L NA A HB G H) as (paths & xs & g' & R & O & ->).
  exists paths, xs, g'. split; [exact R|]. apply omap_forall2 in O.
  assert (PN : forall p x, path_payoff (num := B64 fexp flog) (pcClass P) (pcOption P) p = Ok x -> nonneg x).
  { intros p x X.
    assert (N1 : forall z y, payoff1 (num := B64 fexp flog) (optPayoff (pcOption P)) z = Ok y -> nonneg y).
    { intros z y Y. pose proof (payoff1_nonneg fexp flog (optPayoff (pcOption P)) z) as Q. unfold dbl in Q. rewrite Y in Q. exact Q. }
    assert (N2 : forall z e y, payoff2 (num := B64 fexp flog) (optPayoff (pcOption P)) z e = Ok y -> nonneg y).
    { intros z e y Y. pose proof (payoff2_nonneg fexp flog (optPayoff (pcOption P)) z e) as Q. unfold dbl in Q. rewrite Y in Q. exact Q. }
    destruct (pcClass P) as [|k|k|k|]; cbn [path_payoff] in X; unfold option_payoff1, option_payoff2 in X; eauto; try easy.
    - destruct (optBarrier (pcOption P)); [|easy]. destruct k, (existsb _ p); eauto; injection X as <-; exact nonneg_0.
    - destruct k; eauto. }
  assert (FN : Forall nonneg xs) by (clear - O PN; induction O; constructor; eauto).
  assert (LL : length xs = Z.to_nat N).
  { rewrite <- (runs_length _ _ _ _ _ R). clear - O. induction O; cbn; congruence. }
  destruct (mean_error N (discount_factor (num := B64 fexp flog) w (optT (pcOption P))) xs LN LL FN ltac:(apply E) F) as (FX & FD & _ & B).
  split; [|split; [exact FD|exact B]].
  clear - O FX. revert FX. induction O as [|p x ps xs X O IH]; intros FX; inversion FX; subst; constructor; auto.
Qed.
Print Assumptions C104_rounding.

(** ** C105.  A digital option costs at most the discount factor, in binary64 as well. *)
Lemma rnd_int : forall z, (0 <= z <= INT_MAX)%Z -> rnd (IZR z) = IZR z.
Proof.
  intros z H. apply round_generic; [apply valid_rnd_N|]. apply generic_format_FLT. exists (Float radix2 z 0); [unfold F2R; cbn; lra| |cbn; lia].
  cbn [Fnum]. unfold INT_MAX in H. change (radix2 ^ 53)%Z with 9007199254740992%Z. lia.
Qed.
Lemma count_bound : forall l a i, (0 <= i)%Z -> (i + Z.of_nat (length l) <= INT_MAX)%Z -> Forall (fun x => x = b64_ofZ 0 \/ x = b64_ofZ 1) l ->
  finite a -> 0 <= val a <= IZR i ->
  finite (fold_left b64_add l a) /\ 0 <= val (fold_left b64_add l a) <= IZR (i + Z.of_nat (length l)).
Proof.
  induction l as [|x l IH]; intros a i I LI FL FA VA; cbn [fold_left length].
  - rewrite Z.add_0_r. auto.
  - inversion FL as [|? ? X FL']; subst. cbn [length] in LI.
    assert (FX : finite x) by (destruct X as [-> | ->]; reflexivity).
    assert (VX : 0 <= val x <= 1).
    { destruct X as [-> | ->]; [change (val (b64_ofZ 0)) with (val (@n0 b64 B64_basic)); rewrite n0_val; lra|
       change (val (b64_ofZ 1)) with (val (@n1 b64 B64_basic)); rewrite n1_val; lra]. }
    destruct (val_add a x FA FX) as [NN V].
    assert (B : 0 <= val (b64_add a x) <= IZR (i + 1)).
    { rewrite V. split; [apply fl_nonneg; lra|]. apply Rle_trans with (fl (IZR (i + 1))); [apply fl_le; rewrite plus_IZR; lra|].
      unfold fl. rewrite rnd_int by lia. unfold clamp. apply Rmax_lub; [|apply Rmin_r]. pose proof INF_pos. assert (0 <= IZR (i + 1)) by (apply IZR_le; lia). lra. }
    assert (FAX : finite (b64_add a x)).
    { destruct (notnan_cases _ NN) as [Q|[Q|Q]]; [exact Q| |]; rewrite Q in B; pose proof INF_pos as IP.
      - rewrite val_ninf in B. lra.
      - rewrite val_pinf in B. assert (IZR (i + 1) < INF); [|lra]. apply Rlt_trans with (bpow radix2 53); [|now apply bpow_lt].
        change (bpow radix2 53) with 9007199254740992. apply IZR_lt. unfold INT_MAX in LI. lia. }
    destruct (IH (b64_add a x) (i + 1)%Z ltac:(lia) ltac:(lia) FL' FAX B) as [Q1 Q2].
    split; [exact Q1|]. replace (i + Z.of_nat (Datatypes.S (length l)))%Z with (i + 1 + Z.of_nat (length l))%Z by lia. exact Q2.
Qed.
Theorem C105_digital : forall fexp flog env la P W w wm g N v, (forall x, nonneg (fexp x)) ->
  lives_in P W w wm g -> pcClass P = CSinglePath ->
  (exists ty K, optKind (pcOption P) = Digital /\ optPayoff (pcOption P) = PDigital ty K) \/
  (exists KL KU, optKind (pcOption P) = DoubleDigitalK /\ optPayoff (pcOption P) = PDoubleDigital KL KU) ->
  (1 <= getDim g)%Z -> (1 <= N <= INT_MAX)%Z ->
  fst (@calculatePrice b64 (B64 fexp flog) env la P W N) = Ok v ->
  nonneg v /\ below v (fexp (b64_mul (b64_opp (getR w)) (optT (pcOption P)))).
Proof.
  intros fexp flog env la P W w wm g N v E L C K G LN H.
  split; [exact (C100_never_negative fexp flog env la P W N v E ltac:(lia) H)|].
  assert (AC : accepts (pcClass P) (optKind (pcOption P)) = true) by (rewrite C; destruct K as [(? & ? & -> & _)|(? & ? & -> & _)]; reflexivity).
  destruct (@price_paths b64 (B64 fexp flog) env la P W w wm g N v L ltac:(congruence) AC ltac:(intros; congruence) G H) as (paths & xs & g' & R & O & ->).
  apply omap_forall2 in O.
  assert (D : Forall (fun x => x = b64_ofZ 0 \/ x = b64_ofZ 1) xs).
  { clear - O C K. induction O as [|p x ps xs X O IH]; constructor; auto. rewrite C in X. cbn [path_payoff] in X. unfold option_payoff1 in X.
    destruct K as [(ty & K & _ & PP)|(KL & KU & _ & PP)]; rewrite PP in X; cbn [payoff1] in X.
    - destruct (PayoffType_eqb ty Call); [destruct (nltb K _)|destruct (nltb _ K)]; injection X as <-; auto.
    - destruct (_ && _); injection X as <-; auto. }
  assert (LL : length xs = Z.to_nat N).
  { rewrite <- (runs_length _ _ _ _ _ R). clear - O. induction O; cbn; congruence. }
  assert (Z0 : val (b64_ofZ 0) = 0) by exact n0_val.
  destruct (count_bound xs (b64_ofZ 0) 0 ltac:(lia) ltac:(lia) D eq_refl ltac:(rewrite Z0; lra)) as [FS BS].
  unfold price_of, discount_factor. cbn [nmul ndiv nadd nofZ nexp nopp n0 B64]. set (df := fexp _). set (s := fold_left b64_add xs _) in *.
  destruct (ofZ_exact N LN) as [FN VN]. assert (NP : 1 <= IZR N) by (apply IZR_le; lia).
  destruct (val_div s (b64_ofZ N) FS FN ltac:(rewrite VN; lra)) as [NQ VQ].
  assert (Q1 : 0 <= val (b64_div s (b64_ofZ N)) <= 1).
  { rewrite VQ, VN. rewrite LL in BS. replace (0 + Z.of_nat (Z.to_nat N))%Z with N in BS by lia.
    assert (0 <= val s / IZR N <= 1).
    { split; [apply Rmult_le_pos; [lra|left; apply Rinv_0_lt_compat; lra]|]. apply Rmult_le_reg_r with (IZR N); [lra|].
      unfold Rdiv. rewrite Rmult_assoc, Rinv_l by lra. lra. }
    split; [apply fl_nonneg; lra|]. rewrite <- fl_1. apply fl_le. lra. }
  intros NV ND. destruct (mul_nn _ _ NV) as [_ _].
  assert (B1 : below (b64_mul (b64_div s (b64_ofZ N)) df) (b64_mul (b64_ofZ 1) df)).
  { apply mul_below; [apply E|]. intros _ _. change (val (b64_ofZ 1)) with (val (@n1 b64 B64_basic)). rewrite n1_val. lra. }
  assert (N1 : notnan (b64_mul (b64_ofZ 1) df) /\ val (b64_mul (b64_ofZ 1) df) = val df).
  { destruct (notnan_cases df ND) as [FD|[I|I]].
    - destruct (val_mul (b64_ofZ 1) df eq_refl FD) as [M1 M2]. split; [exact M1|]. rewrite M2.
      change (val (b64_ofZ 1)) with (val (@n1 b64 B64_basic)). rewrite n1_val, Rmult_1_l. apply fl_val; auto.
    - rewrite I. split; reflexivity.
    - rewrite I. split; reflexivity. }
  destruct N1 as [N1 V1]. rewrite <- V1. now apply B1.
Qed.
Print Assumptions C105_digital.

(** ** A world in which the hypotheses hold and the orders are strict *)
Definition dexp (x : b64) : b64 := if b64_ltb x (b64_ofZ 0) then b64_div (b64_ofZ 1) (b64_sub (b64_ofZ 1) x) else b64_add (b64_ofZ 1) x.
Lemma dexp_nonneg : forall x, nonneg (dexp x).
Proof.
  intros x. unfold dexp. destruct (b64_ltb x (b64_ofZ 0)) eqn:B.
  - apply ltb_true_iff in B. destruct B as (NX & _ & B). assert (Z : val (b64_ofZ 0) = 0) by exact n0_val. rewrite Z in B.
    destruct (notnan_cases x NX) as [F|[->| ->]]; [|intros _; apply Rle_refl|rewrite val_pinf in B; pose proof INF_pos; lra].
    destruct (val_sub (b64_ofZ 1) x eq_refl F) as [N V].
    apply div_nonneg; [exact N| |exact nonneg_1]. rewrite V. apply Rlt_le_trans with 1; [lra|]. rewrite <- fl_1 at 1. apply fl_le.
    assert (O : val (b64_ofZ 1) = 1) by exact n1_val. rewrite O. lra.
  - apply add_nonneg; [exact nonneg_1|]. intros N. assert (Z : val (b64_ofZ 0) = 0) by exact n0_val. rewrite <- Z. now apply ltb_false_val.
Qed.
Definition denv : Env b64 :=
  mkEnv (fun _ h => match Nat.modulo (length h) 5 with O => b64_ofZ 2 | 1%nat => b64_ofZ (-1) | 2%nat => b64_ofZ 1 | _ => b64_ofZ (-2) end) (fun _ _ => 1%Z) (fun _ _ _ _ _ => b64_ofZ 0) (fun _ => b64_ofZ 1).
Definition dmarket (S0 : Z) : Market b64 :=
  mkMarket (b64_div (b64_ofZ 1) (b64_ofZ 20)) [("AAPL"%string, 0%nat)] []
    [mkStock (b64_ofZ S0) (b64_div (b64_ofZ 1) (b64_ofZ 5)) None] [].
Definition dworld (S0 : Z) : World b64 := mkWorld [dmarket S0] [Pseudo_ctor1 3 7].
Definition dpricer (c : PricerClass) (k : OptionKind) (p : Payoff b64) (b : option (b64 * BarrierDirection)) : Pricer b64 :=
  mkPricer c (mkOption k "AAPL" (b64_ofZ 1) p b 0) (Some 0%nat) (mkModelObj (mkModel "AAPL" 0 MGBM) 0 0) None None.
Definition dlin : LinAlg b64 := mkLinAlg (fun _ y => y) (fun _ y => y).
Notation dprice P S0 N := (fst (@calculatePrice b64 (B64 dexp dexp) denv dlin P (dworld S0) N)).

Definition strictly (x y : outcome b64) : bool := match x, y with Ok v, Ok v' => b64_ltb v v' | _, _ => false end.
Lemma strictly_ok : forall x y, strictly x y = true -> exists v v', x = Ok v /\ y = Ok v' /\ notnan v /\ notnan v' /\ val v < val v'.
Proof. intros [v| |] [v'| |] H; try discriminate. apply ltb_true_iff in H. exists v, v'. tauto. Qed.

Lemma between_ok : forall a x b, strictly (Ok a) x = true -> strictly x (Ok b) = true ->
  exists v, x = Ok v /\ notnan v /\ val a < val v < val b.
Proof. intros a [v| |] b H H'; try discriminate. apply ltb_true_iff in H, H'. exists v. tauto. Qed.

Definition eur (ty : PayoffType) (K : Z) : Pricer b64 := dpricer CSinglePath European (PVanilla ty (b64_ofZ K)) None.
Definition knock (k : KnockKind) (K B : Z) : Pricer b64 :=
  dpricer (CBarrier k) (match k with KIn => KnockIn | KOut => KnockOut end) (PVanilla Call (b64_ofZ K)) (Some (b64_ofZ B, Up)).

Lemma ofZ_le : forall a b, (a <= b)%Z -> val (b64_ofZ a) <= val (b64_ofZ b).
Proof. intros a b H. destruct (val_ofZ a) as [_ ->], (val_ofZ b) as [_ ->]. apply fl_le. now apply IZR_le. Qed.

(** Three paths of three dates: the call is worth something and less than the spot. *)
Example C100_ex : exists v, dprice (eur Call 100) 100 3 = Ok v /\ nonneg v /\ 0 < val v < 100.
Proof.
  assert (B : strictly (Ok (b64_ofZ 0)) (dprice (eur Call 100) 100 3) = true) by (vm_compute; reflexivity).
  assert (B' : strictly (dprice (eur Call 100) 100 3) (Ok (b64_ofZ 100)) = true) by (vm_compute; reflexivity).
  destruct (between_ok _ _ _ B B') as (v & E & NV & L & L2). exists v. split; [exact E|].
  assert (Z : val (b64_ofZ 0) = 0) by exact n0_val. destruct (ofZ_exact 100 ltac:(unfold INT_MAX; lia)) as [_ H]. rewrite Z in L. rewrite H in L2.
  split; [|lra]. exact (C100_never_negative dexp dexp denv dlin (eur Call 100) (dworld 100) 3 v dexp_nonneg ltac:(lia) E).
Qed.

Example C101_ex : strike_only Call (b64_ofZ 90) (b64_ofZ 100) (eur Call 90) (eur Call 100) /\
  alike below (dprice (eur Call 100) 100 3) (dprice (eur Call 90) 100 3) /\
  exists v v', dprice (eur Call 100) 100 3 = Ok v /\ dprice (eur Call 90) 100 3 = Ok v' /\ notnan v /\ notnan v' /\ val v < val v'.
Proof.
  assert (S : strike_only Call (b64_ofZ 90) (b64_ofZ 100) (eur Call 90) (eur Call 100)) by (repeat split; discriminate).
  split; [exact S|]. split.
  - exact (C101_strike dexp dexp denv dlin (eur Call 90) (eur Call 100) (dworld 100) 3 Call _ _ dexp_nonneg ltac:(lia) S eq_refl eq_refl (ofZ_le 90 100 ltac:(lia))).
  - apply strictly_ok. vm_compute. reflexivity.
Qed.

Example C102_ex : spot_only (eur Call 100) (dworld 100) (dworld 110) /\
  alike below (dprice (eur Call 100) 100 3) (dprice (eur Call 100) 110 3) /\
  exists v v', dprice (eur Call 100) 100 3 = Ok v /\ dprice (eur Call 100) 110 3 = Ok v' /\ notnan v /\ notnan v' /\ val v < val v'.
Proof.
  assert (S : spot_only (eur Call 100) (dworld 100) (dworld 110)).
  { exists (dmarket 100), (dmarket 110), (dmarket 100), (dmarket 110).
    exists (mkStock (b64_ofZ 100) (b64_div (b64_ofZ 1) (b64_ofZ 5)) None), (mkStock (b64_ofZ 110) (b64_div (b64_ofZ 1) (b64_ofZ 5)) None), (Pseudo_ctor1 3 7).
    repeat split; try discriminate. apply ofZ_le. lia. }
  split; [exact S|]. split.
  - exact (C102_spot dexp dexp denv dlin (eur Call 100) (dworld 100) (dworld 110) 3 Call _ dexp_nonneg ltac:(lia) (or_introl eq_refl) eq_refl S).
  - apply strictly_ok. vm_compute. reflexivity.
Qed.

Example C103_ex : exists i i' e, dprice (knock KIn 60 120) 100 3 = Ok i' /\ dprice (knock KIn 60 101) 100 3 = Ok i /\ dprice (eur Call 60) 100 3 = Ok e /\
  below i' i /\ below i e /\ notnan i' /\ notnan i /\ val i' < val i.
Proof.
  assert (B : strictly (dprice (knock KIn 60 120) 100 3) (dprice (knock KIn 60 101) 100 3) = true) by (vm_compute; reflexivity).
  destruct (strictly_ok _ _ B) as (i' & i & E' & E & N' & N & L).
  assert (LV : lives_in (knock KIn 60 101) (dworld 100) (dmarket 100) (dmarket 100) (Pseudo_ctor1 3 7)) by (repeat split).
  destruct (C103_below_european dexp dexp denv dlin (knock KIn 60 101) (eur Call 60) (dworld 100) (dmarket 100) (dmarket 100) (Pseudo_ctor1 3 7) 3
    KIn Call (b64_ofZ 60) (b64_ofZ 101, Up) i dexp_nonneg ltac:(repeat split) ltac:(repeat split) ltac:(repeat split) LV ltac:(cbn; lia) ltac:(unfold INT_MAX; lia) E) as (e & EE & BE).
  destruct (C103_barrier_level dexp dexp denv dlin (knock KIn 60 101) (knock KIn 60 120) (dworld 100) (dmarket 100) (dmarket 100) (Pseudo_ctor1 3 7) 3
    KIn Call (b64_ofZ 60) (b64_ofZ 101, Up) (b64_ofZ 120, Up) i dexp_nonneg ltac:(repeat split) ltac:(repeat split)
    ltac:(repeat split; apply ofZ_le; lia) ltac:(repeat split) LV ltac:(cbn; lia) ltac:(unfold INT_MAX; lia) E) as (j & EJ & BJ).
  rewrite EJ in E'. injection E' as <-. exists i, j, e. auto 10.
Qed.

Lemma Forall2_len : forall {A B} (P : A -> B -> Prop) l l', Forall2 P l l' -> length l = length l'.
Proof. intros A B P l l' H. induction H; cbn; congruence. Qed.
Definition is_number (x : outcome b64) : bool := match x with Ok v => is_finite v | _ => false end.
Lemma is_number_ok : forall x, is_number x = true -> exists v, x = Ok v /\ finite v.
Proof. intros [v| |] H; try discriminate. now exists v. Qed.
Example C104_ex : exists v payoffs, dprice (eur Call 60) 100 3 = Ok v /\ finite v /\ length payoffs = 3%nat /\
  let df := dexp (b64_mul (b64_opp (getR (dmarket 100))) (b64_ofZ 1)) in
  Rabs (val v - val df * Rmean (map val payoffs)) <=
    4 * bpow radix2 (-52) * (val df * Rmean (map val payoffs)) + bpow radix2 (-1074) * (1 + val df).
Proof.
  assert (B : is_number (dprice (eur Call 60) 100 3) = true) by (vm_compute; reflexivity).
  destruct (is_number_ok _ B) as (v & E & FV).
  destruct (C104_rounding dexp dexp denv dlin (eur Call 60) (dworld 100) (dmarket 100) (dmarket 100) (Pseudo_ctor1 3 7) 3 v dexp_nonneg
    ltac:(repeat split) ltac:(discriminate) eq_refl ltac:(discriminate) ltac:(cbn; lia) ltac:(unfold INT_MAX; lia) E FV) as (paths & xs & g' & R & F & FD & H).
  exists v, xs. split; [exact E|]. split; [exact FV|]. split; [|exact H].
  rewrite <- (Forall2_len _ _ _ F). exact (runs_length _ _ _ _ _ R).
Qed.

Definition digi (K : Z) : Pricer b64 := dpricer CSinglePath Digital (PDigital Call (b64_ofZ K)) None.
Example C105_ex : exists v, dprice (digi 105) 100 3 = Ok v /\ notnan v /\ 0 < val v /\
  val v < val (dexp (b64_mul (b64_opp (getR (dmarket 100))) (b64_ofZ 1))) /\
  below v (dexp (b64_mul (b64_opp (getR (dmarket 100))) (b64_ofZ 1))).
Proof.
  assert (B : strictly (Ok (b64_ofZ 0)) (dprice (digi 105) 100 3) = true) by (vm_compute; reflexivity).
  assert (B' : strictly (dprice (digi 105) 100 3) (Ok (dexp (b64_mul (b64_opp (getR (dmarket 100))) (b64_ofZ 1)))) = true) by (vm_compute; reflexivity).
  destruct (between_ok _ _ _ B B') as (v & E & NV & L & L2). exists v. split; [exact E|].
  assert (Z : val (b64_ofZ 0) = 0) by exact n0_val. rewrite Z in L. split; [exact NV|]. split; [exact L|]. split; [exact L2|].
  apply (C105_digital dexp dexp denv dlin (digi 105) (dworld 100) (dmarket 100) (dmarket 100) (Pseudo_ctor1 3 7) 3 v dexp_nonneg); auto.
  - repeat split.
  - left. exists Call, (b64_ofZ 105). now split.
  - cbn. lia.
  - unfold INT_MAX. lia.
Qed.
