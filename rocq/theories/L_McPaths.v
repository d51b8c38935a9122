(** The Monte Carlo pricers as functions of the simulated paths, in any arithmetic. *)
From Coq Require Import String List ZArith Bool Lia.
From Verif Require Import M_Num M_Outcome M_Dict M_Stock M_Market M_Payoff M_Option M_Random M_Model
  M_Regression M_MonteCarlo M_Builder S_MonteCarlo S_McPaths L_Model L_MonteCarlo.
Import ListNotations.

Section Paths.
Context {T : Type} {num : Num T}.

(** [m] runs [sim], then adds [f] of what it returned to its state. *)
Definition adds {A} (n : Z) (sim : SM T A) (f : A -> outcome T) (body : Z -> T -> SM T T) : Prop :=
  forall i s h, gDim h = n -> body i s h =
    match sim h with
    | (Ok p, h') => match f p with Ok x => (Ok (nadd s x), h') | Throw e => (Throw e, h') | UB => (UB, h') end
    | (Throw e, h') => (Throw e, h')
    | (UB, h') => (UB, h')
    end.
Lemma loop_paths : forall {A} (sim : SM T A) f body n, keeps sim -> adds n sim f body ->
  forall k i s g v g', gDim g = n -> siter k i body s g = (Ok v, g') ->
  exists paths vs, runs sim k g = (Ok paths, g') /\ omap f paths = Ok vs /\ v = fold_left nadd vs s.
Proof.
  intros A sim f body n K B. induction k as [|k IH]; intros i s g v g' G E; cbn [siter runs] in *.
  - injection E as <- <-. exists [], []. auto.
  - unfold sbind in E. rewrite (B i s g G) in E. destruct (K g) as [K1 _].
    destruct (sim g) as [[p| |] h]; try discriminate. destruct (f p) as [x| |] eqn:F; try discriminate.
    cbn [snd] in K1. destruct (IH _ _ _ _ _ (eq_trans K1 G) E) as (paths & vs & -> & O & ->).
    exists (p :: paths), (x :: vs). cbn [omap]. now rewrite F, O.
Qed.
Lemma paths_loop : forall {A} (sim : SM T A) f body n, keeps sim -> adds n sim f body ->
  forall k i s g paths vs g', gDim g = n -> runs sim k g = (Ok paths, g') -> omap f paths = Ok vs ->
  siter k i body s g = (Ok (fold_left nadd vs s), g').
Proof.
  intros A sim f body n K B. induction k as [|k IH]; intros i s g paths vs g' G E O; cbn [siter runs] in *.
  - injection E as <- <-. injection O as <-. reflexivity.
  - unfold sbind. rewrite (B i s g G). destruct (K g) as [K1 _].
    destruct (sim g) as [[p| |] h]; try discriminate. cbn [snd] in K1.
    destruct (runs sim k h) as [[l| |] h'] eqn:R; try discriminate. injection E as <- <-. cbn [omap] in O.
    destruct (f p) as [x| |]; try discriminate. destruct (omap f l) as [xs| |] eqn:O'; try discriminate.
    injection O as <-. now apply (IH _ _ _ l xs h' (eq_trans K1 G)).
Qed.

Variable env : Env T.

Lemma prices_fold : forall {A} (f : T -> A -> A) (P : list T) a, (Z.of_nat (length P) <= INT_MAX)%Z ->
  for_prices P (Z.of_nat (length P)) (fun x a => (f x a, false)) a = Ok (fold_left (fun a x => f x a) P a).
Proof. intros. now apply for_prices_fold. Qed.

Lemma crossed_any : forall k o b P, optBarrier o = Some b ->
  optKind o = match k with KIn => KnockIn | KOut => KnockOut end ->
  (Z.of_nat (length P) <= INT_MAX)%Z ->
  barrier_crossed k o P (Z.of_nat (length P)) = Ok (existsb (beyond b) P).
Proof.
  intros k o [B d] P Eb Ek L. unfold barrier_crossed, for_int.
  destruct (Z.leb_spec (Z.of_nat (length P)) INT_MAX); [|lia]. rewrite Nat2Z.id.
  assert (A : forall x, isActive o x = Ok (match k with KIn => beyond (B, d) x | KOut => negb (beyond (B, d) x) end)).
  { intros x. unfold isActive. rewrite Eb, Ek. unfold knockIn_isActive, knockOut_isActive. destruct k, d; reflexivity. }
  assert (E : forall suf pre c, P = pre ++ suf ->
    exists s, iter_from (length suf) (Z.of_nat (length pre)) (fun t '(hasCrossed, stop) =>
      if stop : bool then Ok (hasCrossed, true)
      else bind (vget P t) (fun x => bind (isActive o x) (fun a => Ok (checkHasCrossed k a hasCrossed)))) (c, false) =
    Ok (c || existsb (beyond (B, d)) suf, s)).
  { assert (Stop : forall n i, iter_from n i (fun t '(hasCrossed, stop) =>
      if stop : bool then Ok (hasCrossed, true)
      else bind (vget P t) (fun x => bind (isActive o x) (fun a => Ok (checkHasCrossed k a hasCrossed)))) (true, true) =
      Ok (true, true)).
    { induction n as [|n IH]; intros i; cbn [iter_from bind]; [easy|apply IH]. }
    induction suf as [|x suf IH]; intros pre c E; cbn [length iter_from]; [exists false; cbn [existsb]; now rewrite orb_false_r|].
    assert (V : vget P (Z.of_nat (length pre)) = Ok x) by (rewrite E; apply vget_app). rewrite V. cbn [bind]. rewrite A. cbn [bind].
    replace (Z.of_nat (length pre) + 1)%Z with (Z.of_nat (length (pre ++ [x]))) by (rewrite app_length; cbn; lia).
    cbn [existsb].
    destruct k; cbn [checkHasCrossed].
    - destruct (beyond (B, d) x).
      + destruct (IH (pre ++ [x]) true) as [s Hs]; [now rewrite <- app_assoc|]. exists s. etransitivity; [exact Hs|]. cbn. now rewrite orb_true_r.
      + destruct (IH (pre ++ [x]) c) as [s Hs]; [now rewrite <- app_assoc|]. exists s. exact Hs.
    - destruct (beyond (B, d) x); cbn [negb].
      + exists true. etransitivity; [apply Stop|]. cbn [orb]. now rewrite orb_true_r.
      + destruct (IH (pre ++ [x]) c) as [s Hs]; [now rewrite <- app_assoc|]. exists s. exact Hs. }
  destruct (E P [] false eq_refl) as [s Es]. change (Z.of_nat (length (@nil T))) with 0%Z in Es. rewrite Es. reflexivity.
Qed.

Lemma last_any : forall P : list T, P <> [] -> (Z.of_nat (length P) <= INT_MAX)%Z -> last_price P (Z.of_nat (length P)) = Ok (final P).
Proof. intros. now apply last_price_ok. Qed.
Lemma back_any : forall P : list T, P <> [] -> vback P = Ok (final P).
Proof. intros. now apply vback_last. Qed.

Lemma fold_map : forall (f : T -> T) l a, fold_left (fun a x => nadd a (f x)) l a = fold_left nadd (map f l) a.
Proof. induction l as [|x l IH]; intros a; cbn; auto. Qed.
Lemma prices_ext : forall {A} (P : list T) n (f h : T -> A -> A * bool) a, (forall x a, f x a = h x a) ->
  for_prices P n f a = for_prices P n h a.
Proof.
  intros A P n f h a H. unfold for_prices, for_int.
  assert (E : forall k i s, iter_from k i (fun t '(a, stop) => if stop : bool then Ok (a, true) else bind (vget P t) (fun x => Ok (f x a))) s =
    iter_from k i (fun t '(a, stop) => if stop : bool then Ok (a, true) else bind (vget P t) (fun x => Ok (h x a))) s).
  { intros. apply iter_from_ext. intros j [x []]; [easy|]. destruct (vget P j); cbn [bind]; [now rewrite H|easy|easy]. }
  destruct (n <=? INT_MAX)%Z; now rewrite E.
Qed.

Lemma nonempty : forall m (w : Market T) t h P h', (1 <= gDim h)%Z -> simulatePrices env m w t h = (Ok P, h') ->
  P <> [] /\ Z.of_nat (length P) = gDim h /\ (Z.of_nat (length P) <= INT_MAX)%Z.
Proof.
  intros m w t h P h' G E. apply simulate_length in E. destruct E as [E1 E2].
  repeat split; [|lia|lia]. intros ->. cbn in E1. lia.
Qed.

(** The loop body of each class, as in the model. *)
Definition class_step (c : PricerClass) (o : Option T) (m : StockModel T) (wm : Market T) (steps : Z) (s : T) : SM T T :=
  match c with
  | CSinglePath =>
      sbind (simulatePriceAtMaturity env m wm (optT o)) (fun S_T =>
      sbind (slift (option_payoff1 o S_T)) (fun p => sret (nadd s p)))
  | CAsian k =>
      sbind (simulatePrices env m wm (optT o)) (fun S =>
      sbind (slift (for_prices S steps (fun x sumPrices => (nadd sumPrices (computeSumPrices k x), false)) n0)) (fun sumPrices =>
      sbind (slift (option_payoff1 o (computeAveragePrice k sumPrices steps))) (fun p => sret (nadd s p))))
  | CBarrier k =>
      sbind (simulatePrices env m wm (optT o)) (fun S =>
      sbind (slift (barrier_crossed k o S steps)) (fun hasCrossed =>
      sbind (slift (last_price S steps)) (fun S_T =>
      sbind (slift (barrier_payoff k o S_T hasCrossed)) (fun p => sret (nadd s p)))))
  | CLookback k =>
      sbind (simulatePrices env m wm (optT o)) (fun S =>
      sbind (slift (for_prices S steps (fun x '(S_min, S_max) => ((min_from S_min x, max_from S_max x), false)) (None, None))) (fun ext =>
      sbind (slift (last_price S steps)) (fun S_T =>
      sbind (slift (lookback_payoff k o S_T (or_inf (fst ext) plus_infinity) (or_inf (snd ext) (nopp plus_infinity)))) (fun p =>
      sret (nadd s p)))))
  | CAmerican => slift UB
  end.

Lemma step_adds : forall c o m wm n, accepts c (optKind o) = true -> c <> CAmerican -> (1 <= n)%Z ->
  (forall k, c = CBarrier k -> exists b, optBarrier o = Some b) ->
  adds n (simulatePrices env m wm (optT o)) (path_payoff c o) (fun _ s => class_step c o m wm n s).
Proof.
  intros c o m wm n A NA LN HB i s h H.
  destruct c as [|k|k|k|]; [| | | |easy]; cbn [class_step path_payoff]; unfold simulatePriceAtMaturity, sbind, slift;
    destruct (simulatePrices env m wm (optT o) h) as [[P| |] h'] eqn:E; try reflexivity;
    destruct (nonempty _ _ _ _ _ _ ltac:(rewrite H; exact LN) E) as (NE & L1 & L2); rewrite H in L1; try rewrite <- L1.
  - rewrite (back_any P NE). reflexivity.
  - rewrite (prices_fold (fun x a => nadd a (computeSumPrices k x))) by exact L2. destruct k; cbn [computeSumPrices computeAveragePrice average].
    + reflexivity.
    + rewrite (fold_map nlog). reflexivity.
  - destruct (HB k eq_refl) as [b B]. rewrite (crossed_any k o b P B) by (exact L2 || (destruct k; destruct (optKind o); easy)).
    rewrite (last_any P NE L2), B. unfold barrier_payoff. destruct k, (existsb (beyond b) P); reflexivity.
  - rewrite (prices_ext P _ _ (fun x p => ((fun x '(a, b) => (min_from a x, max_from b x)) x p, false))) by (now intros x []).
    rewrite (prices_fold (fun x '(a, b) => (min_from a x, max_from b x))) by exact L2.
    assert (F : forall l p, fold_left (fun a x => (fun x '(u, v) => (min_from u x, max_from v x)) x a) l p =
      (fold_left min_from l (fst p), fold_left max_from l (snd p)) :> option T * option T).
    { induction l as [|x l IH]; intros [a b]; cbn [fold_left fst snd]; [reflexivity|]. rewrite IH. reflexivity. }
    rewrite F. cbn [fst snd]. rewrite (last_any P NE L2).
    unfold lookback_payoff, lowest, highest, plus_infinity. destruct k, (getPayoffType (optPayoff o)); reflexivity.
Qed.

Variable la : LinAlg T.

(** A price comes from N paths ... *)
Lemma price_paths : forall P W w wm g N v, lives_in P W w wm g -> pcClass P <> CAmerican ->
  accepts (pcClass P) (optKind (pcOption P)) = true ->
  (forall k, pcClass P = CBarrier k -> exists b, optBarrier (pcOption P) = Some b) ->
  (1 <= getDim g)%Z -> fst (calculatePrice env la P W N) = Ok v ->
  exists paths payoffs g',
    runs (simulatePrices env (moModel (pcModel P)) wm (optT (pcOption P))) (Z.to_nat N) g = (Ok paths, g') /\
    omap (path_payoff (pcClass P) (pcOption P)) paths = Ok payoffs /\
    v = price_of N (discount_factor w (optT (pcOption P))) payoffs.
Proof.
  intros P W w wm g N v (L1 & L2 & L3) NA A HB G H. unfold calculatePrice in H. rewrite L1, L2, L3 in H. unfold getDim in G.
  pose proof (step_adds (pcClass P) (pcOption P) (moModel (pcModel P)) wm (gDim g) A NA G HB) as S.
  pose proof (keeps_simulate env (moModel (pcModel P)) wm (optT (pcOption P))) as KS.
  assert (X : exists s g', siter (Z.to_nat N) 0 (fun _ s => class_step (pcClass P) (pcOption P) (moModel (pcModel P)) wm (gDim g) s) n0 g = (Ok s, g') /\
    v = nmul (ndiv s (nofZ N)) (discount_factor w (optT (pcOption P)))).
  { clear S. unfold class_step. destruct (pcClass P) as [|k|k|k|]; [| | | |easy];
      match type of H with context [let (_, _) := ?run g in _] => destruct (run g) as [res g1] eqn:RR end; cbn [fst] in H; subst res;
      unfold single_path_price, asian_price, barrier_price, lookback_price in RR; cbv zeta in RR;
      apply sbind_ok in RR; destruct RR as (s & g2 & RS & RE); injection RE as <- <-;
      unfold sfor_ulong in RS || (unfold sfor_int in RS; destruct (N <=? INT_MAX)%Z;
        [|apply sbind_ok in RS; destruct RS as (? & ? & _ & RS); discriminate]); exists s, g2; (split; [exact RS|reflexivity]). }
  destruct X as (s & g' & X & ->).
  destruct (loop_paths _ _ _ _ KS S _ _ _ _ _ _ eq_refl X) as (paths & vs & R & O & ->).
  exists paths, vs, g'. auto.
Qed.

(** ... and N paths with payoffs give the price. *)
Lemma paths_price : forall P W w wm g N paths payoffs g', lives_in P W w wm g -> pcClass P <> CAmerican ->
  accepts (pcClass P) (optKind (pcOption P)) = true ->
  (forall k, pcClass P = CBarrier k -> exists b, optBarrier (pcOption P) = Some b) ->
  (1 <= getDim g)%Z -> (N <= INT_MAX)%Z ->
  runs (simulatePrices env (moModel (pcModel P)) wm (optT (pcOption P))) (Z.to_nat N) g = (Ok paths, g') ->
  omap (path_payoff (pcClass P) (pcOption P)) paths = Ok payoffs ->
  fst (calculatePrice env la P W N) = Ok (price_of N (discount_factor w (optT (pcOption P))) payoffs).
Proof.
  intros P W w wm g N paths payoffs g' (L1 & L2 & L3) NA A HB G LN R O. unfold calculatePrice. rewrite L1, L2, L3. unfold getDim in G.
  pose proof (step_adds (pcClass P) (pcOption P) (moModel (pcModel P)) wm (gDim g) A NA G HB) as S.
  pose proof (keeps_simulate env (moModel (pcModel P)) wm (optT (pcOption P))) as KS.
  pose proof (paths_loop _ _ _ _ KS S _ 0%Z n0 _ _ _ _ eq_refl R O) as X. clear S.
  assert (I : (N <=? INT_MAX)%Z = true) by now apply Z.leb_le.
  unfold class_step in X. destruct (pcClass P) as [|k|k|k|]; [| | | |easy];
    unfold single_path_price, asian_price, barrier_price, lookback_price; cbv zeta; unfold sfor_ulong, sfor_int; rewrite ?I;
    unfold getSteps, getDim; unfold sbind at 1; rewrite X; reflexivity.
Qed.
End Paths.
