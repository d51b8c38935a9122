(** Properties C82-C88: relations between Monte Carlo prices computed on the same draws, in
    exact arithmetic. *)
From Coq Require Import String List ZArith Bool Lia Reals Lra.
From Flocq Require Import Core.
From Verif Require Import M_Num M_Outcome M_Dict M_Stock M_Market M_Payoff M_Option M_Random M_Model
  M_Regression M_MonteCarlo M_Builder S_Option S_Random S_Model S_MonteCarlo S_American L_Option L_Model L_MonteCarlo
  L_McScale P_Model P_MonteCarlo P_American.
Import ListNotations.
Local Open Scope R_scope.

Lemma class_not_american : forall P, wf_pricer P -> optKind (pcOption P) <> American -> pcClass P <> CAmerican.
Proof. intros P [A _] H C. rewrite C in A. destruct (optKind (pcOption P)); easy. Qed.

Lemma wf_vanilla_kind : forall P ty K, wf_pricer P -> optPayoff (pcOption P) = PVanilla ty K ->
  optKind (pcOption P) <> FloatingLookback.
Proof.
  intros P ty K [_ (_ & H & _)] E C. rewrite C, E in H. destruct H as (? & _ & H). discriminate.
Qed.

(** ** C82.  With one monitoring date every path-dependent payoff is the European one. *)
Definition one_date_kind (k : OptionKind) : Prop :=
  k = ArithmeticAsian \/ k = GeometricAsian \/ k = FixedLookback.

Lemma runs_one : forall env m wm t n g paths g' p, getDim g = 1%Z ->
  runs (simulatePrices env m wm t) n g = (Ok paths, g') -> In p paths -> exists x : R, p = [x].
Proof.
  intros env m wm t n g paths g' p G E I.
  destruct (runs_in _ (keeps_simulate env m wm t) _ _ _ _ E p I) as (h & h' & D & _ & S).
  apply simulate_length in S. destruct S as [S _]. unfold getDim in *. rewrite D, G in S.
  destruct p as [|x [|y p]]; cbn in S; try discriminate. now exists x.
Qed.

Lemma runs_positive : forall env m wm t n g paths g' p d, deref (mdStock m) wm = Ok d -> 0 < S_ d ->
  runs (simulatePrices env m wm t) n g = (Ok paths, g') -> In p paths -> Forall (Rlt 0) p.
Proof.
  intros env m wm t n g paths g' p d D P E I.
  destruct (runs_in _ (keeps_simulate env m wm t) _ _ _ _ E p I) as (h & h' & _ & _ & S).
  eapply simulate_positive; eauto.
Qed.

Theorem C82_one_date : forall env la P Q W w wm d g N ty K v,
  wf_pricer P -> wf_pricer Q -> same_run P Q ->
  optKind (pcOption P) = European -> optPayoff (pcOption P) = PVanilla ty K ->
  one_date_kind (optKind (pcOption Q)) -> optPayoff (pcOption Q) = PVanilla ty K ->
  lives_in P W w wm g -> deref (mdStock (moModel (pcModel P))) wm = Ok d -> 0 < S_ d ->
  (1 <= N <= INT_MAX)%Z -> getDim g = 1%Z ->
  fst (calculatePrice env la P W N) = Ok v -> fst (calculatePrice env la Q W N) = Ok v.
Proof.
  intros env la P Q W w wm d g N ty K v WP WQ SR KP PP KQ PQ L D PS LN LD E.
  assert (NP : pcClass P <> CAmerican) by (apply class_not_american; congruence).
  assert (NQ : pcClass Q <> CAmerican).
  { apply class_not_american; [easy|]. destruct KQ as [-> | [-> | ->]]; discriminate. }
  destruct (two_prices env la P Q W w wm g N v WP NP WQ NQ SR L LN ltac:(lia) E)
    as (paths & g' & NE & _ & R & -> & EQ).
  rewrite EQ. do 3 f_equal. apply map_ext_in. intros p I.
  destruct (runs_one _ _ _ _ _ _ _ _ _ LD R I) as [x ->].
  pose proof (runs_positive _ _ _ _ _ _ _ _ _ _ D PS R I) as F. inversion_clear F as [|? ? X _].
  unfold path_value. rewrite KP, PP, PQ. cbn [last terminal getPayoffType].
  destruct KQ as [-> | [-> | ->]].
  - f_equal. unfold Rmean. cbn. field.
  - f_equal. unfold geometric_mean, Rmean. cbn. rewrite <- (exp_ln x) at 2 by easy. f_equal. field.
  - destruct ty; reflexivity.
Qed.
Print Assumptions C82_one_date.

(** The floating lookback is then worth nothing. *)
Theorem C82_floating : forall env la P W w wm g N v,
  wf_pricer P -> optKind (pcOption P) = FloatingLookback -> lives_in P W w wm g ->
  (1 <= N <= INT_MAX)%Z -> getDim g = 1%Z ->
  fst (calculatePrice env la P W N) = Ok v -> v = 0.
Proof.
  intros env la P W w wm g N v WP KP L LN LD E.
  destruct (two_prices env la P P W w wm g N v WP (class_not_american _ WP ltac:(congruence)) WP
     (class_not_american _ WP ltac:(congruence)) ltac:(repeat split) L LN ltac:(lia) E)
    as (paths & g' & NE & _ & R & -> & _).
  rewrite (map_ext_in _ (fun _ => 0)); [rewrite Rmean_const by easy; lra|].
  intros p I. destruct (runs_one _ _ _ _ _ _ _ _ _ LD R I) as [x ->].
  unfold path_value. rewrite KP. cbn. destruct (getPayoffType (optPayoff (pcOption P))); lra.
Qed.
Print Assumptions C82_floating.

(** So is the American price, whether the pricer simulates forward or backward. *)
Lemma runs_maturity : forall env m wm t n g l g', runs (simulatePriceAtMaturity env m wm t) n g = (Ok l, g') ->
  exists paths : list (list R), runs (simulatePrices env m wm t) n g = (Ok paths, g') /\ l = map (fun p => last p 0) paths.
Proof.
  intros env m wm t. induction n as [|n IH]; intros g l g' E; cbn [runs] in *.
  - injection E as <- <-. now exists [].
  - destruct (simulatePriceAtMaturity env m wm t g) as [[x| |] h] eqn:S; try discriminate.
    destruct (runs _ n h) as [[l'| |] h'] eqn:R; try discriminate. injection E as <- <-.
    destruct (IH _ _ _ R) as (paths & R' & ->).
    unfold simulatePriceAtMaturity in S. apply sbind_ok in S. destruct S as (p & h1 & S & B). rewrite S.
    unfold slift in B. injection B as B <-. rewrite R'. exists (p :: paths). split; [reflexivity|]. cbn [map]. f_equal.
    destruct p as [|y p]; [discriminate|]. rewrite (vback_last _ 0) in B by easy. congruence.
Qed.

Theorem C82_american : forall env la P Q W w wm g N ty K v,
  wf_pricer P -> wf_pricer Q -> same_run P Q ->
  optKind (pcOption P) = American -> optPayoff (pcOption P) = PVanilla ty K ->
  optKind (pcOption Q) = European -> optPayoff (pcOption Q) = PVanilla ty K ->
  lives_in P W w wm g -> (1 <= N <= INT_MAX)%Z -> getDim g = 1%Z ->
  fst (calculatePrice env la P W N) = Ok v -> fst (calculatePrice env la Q W N) = Ok v.
Proof.
  intros env la P Q W w wm g N ty K v WP WQ (M1 & M2 & M3) KP PP KQ PQ L LN LD E.
  assert (CP : pcClass P = CAmerican).
  { destruct WP as [A _]. rewrite KP in A. destruct (pcClass P) as [|[]|[]|[]|]; easy. }
  assert (NQ : pcClass Q <> CAmerican) by (apply class_not_american; congruence).
  unfold getDim in LD.
  destruct (C49_cash_flows env la P W w wm g N v L WP CP ltac:(lia) ltac:(lia) E) as (dates & g' & tau & D & TAU & ->).
  rewrite LD in *. change (Z.to_nat 1) with 1%nat in *.
  assert (L' : lives_in Q W w wm g) by (unfold lives_in in *; now rewrite <- M1, <- M2).
  pose proof (C41_discounted_mean env la Q W w wm g N WQ NQ L' LN ltac:(unfold getDim; lia)) as HQ. cbv zeta in HQ.
  rewrite <- M2, <- M3 in HQ.
  assert (X : exists paths, runs (simulatePrices env (moModel (pcModel P)) wm (optT (pcOption P))) (Z.to_nat N) g = (Ok paths, g') /\
              dates = [map (fun p => last p 0) paths]).
  { unfold price_dates in D. destruct (bridges (moModel (pcModel P)) g).
    - apply sbind_ok in D. destruct D as (xs & g1 & D1 & D2). apply sbind_ok in D2. destruct D2 as (es & g2 & D2 & D3).
      cbn in D2. unfold sret in D2, D3. injection D2 as <- <-. injection D3 as <- <-.
      destruct (runs_maturity _ _ _ _ _ _ _ _ D1) as (paths & R & ->). now exists paths.
    - apply sbind_ok in D. destruct D as (paths & g1 & D1 & D2). unfold sret in D2. injection D2 as <- <-.
      exists paths. split; [exact D1|]. cbn. f_equal. apply map_ext_in. intros p I.
      destruct (runs_one _ _ _ _ _ _ _ _ _ LD D1 I) as [x ->]. reflexivity. }
  destruct X as (paths & RR & ->). rewrite RR in HQ. destruct HQ as [_ ->]. f_equal.
  unfold exercise_value.
  pose proof (runs_length _ _ _ _ _ RR) as LP. rewrite <- LP in *.
  assert (DF : forall c (f : list R -> R), c * Rmean (map f paths) = Rmean (map (fun i => f (nth i paths []) * c) (seq 0 (length paths)))).
  { intros c f. unfold Rmean. rewrite !map_length, seq_length. unfold Rdiv. rewrite <- Rmult_assoc. f_equal.
    clear. induction paths as [|p l IH]; [cbn; lra|]. cbn [map Rsum fold_right length seq nth].
    fold (Rsum (map f l)). rewrite <- seq_shift, map_map. cbn [nth].
    change (fold_right Rplus 0 (map (fun x => f (nth x l []) * c) (seq 0 (length l)))) with
      (Rsum (map (fun i => f (nth i l []) * c) (seq 0 (length l)))). rewrite <- IH. lra. }
  rewrite DF. f_equal. apply map_ext_in. intros i I. apply in_seq in I.
  destruct (TAU i ltac:(lia)) as [TI _]. replace (tau i) with 1%nat by lia.
  unfold price_at, itm_before. cbn [length Nat.sub nth seq pred filter]. unfold path_value. rewrite KQ, PP, PQ.
  pose proof (map_nth (fun p => last p 0) paths [] i) as MN. cbn [last] in MN. rewrite MN.
  cbn [terminal]. f_equal. f_equal. cbn [Init.Nat.pred seq filter length INR]. unfold Rdiv. rewrite Rinv_1. ring.
Qed.
Print Assumptions C82_american.

(** ** C83.  Prices are homogeneous in the currency unit. *)
Theorem C83_paths_proportional : forall env m w w' d d' lam t g,
  deref (mdStock m) w = Ok d -> deref (mdStock m) w' = Ok d' -> scaled_stock lam d d' -> getR w' = getR w ->
  simulatePrices env m w' t g =
    (match fst (simulatePrices env m w t g) with
     | Ok path => Ok (map (Rmult lam) path)
     | Throw e => Throw e
     | UB => UB
     end, snd (simulatePrices env m w t g)).
Proof.
  intros env m w w' d d' lam t g D D' H Hr.
  destruct (rel_simulate env lam m w w' d d' t D D' H Hr g) as [R1 R2].
  destruct (simulatePrices env m w t g) as [[p| |] h], (simulatePrices env m w' t g) as [[p'| |] h']; cbn in *;
    try contradiction; unfold scaled_path in *; subst; reflexivity.
Qed.
Print Assumptions C83_paths_proportional.

(** The payoff and the barrier in another unit. *)
Definition scaled_payoff (lam : R) (p : Payoff R) : Payoff R :=
  match p with
  | PVanilla ty K => PVanilla ty (lam * K)
  | PDigital ty K => PDigital ty (lam * K)
  | PDoubleDigital KL KU => PDoubleDigital (lam * KL) (lam * KU)
  | PFloating ty => PFloating ty
  end.
Definition scaled_option (lam : R) (o o' : Option R) : Prop :=
  optKind o' = optKind o /\ optT o' = optT o /\ optPayoff o' = scaled_payoff lam (optPayoff o) /\
  optBarrier o' = match optBarrier o with Some (B, dir) => Some (lam * B, dir) | None => None end.
(** Digital options pay a fixed amount, all others an amount in the unit of the prices. *)
Definition pays_fixed (k : OptionKind) : bool :=
  match k with Digital | DoubleDigitalK => true | _ => false end.

Lemma terminal_scale : forall lam p x, 0 < lam ->
  terminal (scaled_payoff lam p) (lam * x) =
    match p with PVanilla _ _ => lam * terminal p x | _ => terminal p x end.
Proof.
  intros lam p x H.
  assert (LT : forall a b, lam * a < lam * b <-> a < b).
  { intros a b. split; [apply Rmult_lt_reg_l; easy|apply Rmult_lt_compat_l; easy]. }
  assert (LE : forall a b, lam * a <= lam * b <-> a <= b).
  { intros a b. split; [apply Rmult_le_reg_l; easy|apply Rmult_le_compat_l; lra]. }
  destruct p as [ty K|[] K|KL KU|ty]; cbn [scaled_payoff terminal]; try reflexivity.
  - apply vanilla_scale. lra.
  - destruct (Rlt_dec (lam * K) (lam * x)) as [A|A], (Rlt_dec K x) as [B|B]; rewrite ?LT in A; lra.
  - destruct (Rlt_dec (lam * x) (lam * K)) as [A|A], (Rlt_dec x K) as [B|B]; rewrite ?LT in A; lra.
  - destruct (Rlt_dec (lam * x) (lam * K)) as [A|A], (Rlt_dec x K) as [B|B]; rewrite ?LT in A; lra.
  - destruct (Rle_dec (lam * KL) (lam * x)) as [A|A], (Rle_dec KL x) as [B|B]; rewrite ?LE in A; try lra.
    destruct (Rle_dec (lam * x) (lam * KU)) as [A'|A'], (Rle_dec x KU) as [B'|B']; rewrite ?LE in A'; lra.
Qed.

Lemma path_value_scale : forall lam o o' path, 0 < lam -> wf_option o -> scaled_option lam o o' ->
  path <> [] -> Forall (Rlt 0) path ->
  path_value o' (map (Rmult lam) path) =
    (if pays_fixed (optKind o) then 1 else lam) * path_value o path.
Proof.
  intros lam o o' path H (_ & WP & WB) (E1 & E2 & E3 & E4) NE F. unfold path_value, pays_fixed. rewrite E1, E3, E4.
  destruct (optKind o); cbv zeta in *;
    repeat match goal with X : exists _, _ |- _ => destruct X | X : _ /\ _ |- _ => destruct X end;
    try match goal with X : optPayoff o = _ |- _ => rewrite X end;
    try match goal with X : optBarrier o = _ |- _ => rewrite X end.
  all: try (rewrite last_scale, terminal_scale by easy; cbn; lra).
  - rewrite Rmean_scale, terminal_scale by easy. reflexivity.
  - rewrite geometric_scale, terminal_scale by easy. reflexivity.
  - rewrite lmax_scale, lmin_scale by lra. rewrite !terminal_scale by easy. cbn. destruct x; reflexivity.
  - rewrite lmax_scale, lmin_scale, last_scale by lra. cbn [scaled_payoff getPayoffType]. destruct x; ring.
  - destruct x as [B dir]. rewrite touched_scale, last_scale, terminal_scale by easy.
    destruct (touched _ _); cbn; lra.
  - destruct x as [B dir]. rewrite touched_scale, last_scale, terminal_scale by easy.
    destruct (touched _ _); cbn; lra.
Qed.

(** Two pricers of the same model in two worlds where only the stock price differs, by the
    factor [lam]: the second sees the paths of the first times [lam]. *)
Definition rescaled (lam : R) (P P' : Pricer R) (W W' : World R) : Prop := exists w wm w' wm' d d' g,
  lives_in P W w wm g /\ lives_in P' W' w' wm' g /\ moModel (pcModel P') = moModel (pcModel P) /\
  optT (pcOption P') = optT (pcOption P) /\ getR w' = getR w /\ getR wm' = getR wm /\
  deref (mdStock (moModel (pcModel P))) wm = Ok d /\ deref (mdStock (moModel (pcModel P))) wm' = Ok d' /\
  scaled_stock lam d d' /\ 0 < S_ d /\ (1 <= getDim g)%Z.

Lemma rescaled_prices : forall env la lam P P' W W' N v,
  rescaled lam P P' W W' -> wf_pricer P -> wf_pricer P' -> pcClass P <> CAmerican -> pcClass P' <> CAmerican ->
  (1 <= N <= INT_MAX)%Z -> fst (calculatePrice env la P W N) = Ok v ->
  exists df paths w wm g g', lives_in P W w wm g /\ df = exp (- getR w * optT (pcOption P)) /\
    runs (simulatePrices env (moModel (pcModel P)) wm (optT (pcOption P))) (Z.to_nat N) g = (Ok paths, g') /\
    0 < df /\ paths <> [] /\ (forall p, In p paths -> p <> [] /\ Forall (Rlt 0) p) /\
    v = df * Rmean (map (path_value (pcOption P)) paths) /\
    fst (calculatePrice env la P' W' N) =
      Ok (df * Rmean (map (fun p => path_value (pcOption P') (map (Rmult lam) p)) paths)).
Proof.
  intros env la lam P P' W W' N v (w & wm & w' & wm' & d & d' & g & L & L' & M & TT & Rw & Rm & D & D' & SC & S0 & LD)
    WP WP' NP NP' LN E.
  pose proof (C41_discounted_mean env la P W w wm g N WP NP L LN LD) as HP. cbv zeta in HP.
  pose proof (C41_discounted_mean env la P' W' w' wm' g N WP' NP' L' LN LD) as HQ. cbv zeta in HQ.
  rewrite M, TT, Rw in HQ.
  destruct (rel_runs _ _ _ (rel_simulate env lam _ wm wm' d d' (optT (pcOption P)) D D' SC Rm) (Z.to_nat N) g) as [_ RR].
  destruct (runs (simulatePrices env _ wm _) (Z.to_nat N) g) as [[paths| |] g1] eqn:R1;
    destruct HP as [_ HP]; rewrite HP in E; try discriminate. injection E as <-.
  destruct (runs (simulatePrices env _ wm' _) (Z.to_nat N) g) as [[paths'| |] g2]; cbn in RR; try contradiction.
  destruct HQ as [_ HQ].
  exists (exp (- getR w * optT (pcOption P))), paths, w, wm, g, g1. do 3 (split; [easy|]). split; [apply exp_pos|].
  split; [intros ->; apply runs_length in R1; cbn in R1; lia|]. split; [|split; [reflexivity|]].
  - intros p I. split; [exact (runs_paths _ _ _ _ _ _ _ _ LD R1 p I)|exact (runs_positive _ _ _ _ _ _ _ _ _ _ D S0 R1 I)].
  - rewrite HQ. do 3 f_equal. clear - RR. induction RR as [|p p' l l' X RR IH]; [reflexivity|]. cbn [map].
    unfold scaled_path in X. now rewrite X, IH.
Qed.

Lemma Rmean_ext_scale : forall {A} (c : R) (u v : A -> R) l, (forall x, In x l -> u x = c * v x) ->
  Rmean (map u l) = c * Rmean (map v l).
Proof.
  intros A c u v l H. rewrite <- Rmean_scale, map_map. f_equal. now apply map_ext_in.
Qed.

Theorem C83_homogeneous : forall env la lam P P' W W' N v, 0 < lam ->
  rescaled lam P P' W W' -> scaled_option lam (pcOption P) (pcOption P') -> wf_pricer P -> wf_pricer P' ->
  optKind (pcOption P) <> American -> (1 <= N <= INT_MAX)%Z ->
  fst (calculatePrice env la P W N) = Ok v ->
  fst (calculatePrice env la P' W' N) = Ok ((if pays_fixed (optKind (pcOption P)) then 1 else lam) * v).
Proof.
  intros env la lam P P' W W' N v H RS SO WP WP' KP LN E.
  assert (NP' : pcClass P' <> CAmerican).
  { apply class_not_american; [easy|]. destruct SO as [-> _]. easy. }
  destruct (rescaled_prices env la lam P P' W W' N v RS WP WP' (class_not_american _ WP KP) NP' LN E)
    as (df & paths & w0 & wm0 & g0 & g1 & L0 & EDF & R0 & DF & NE & PP & -> & ->).
  f_equal. rewrite (Rmean_ext_scale (if pays_fixed (optKind (pcOption P)) then 1 else lam) _ (path_value (pcOption P)) paths); [ring|].
  intros p I. destruct (PP p I). apply path_value_scale; try easy. apply WP.
Qed.
Print Assumptions C83_homogeneous.

(** ** C84.  The price as a function of the strike. *)
Lemma value_form : forall k b ty path, k <> FloatingLookback -> exists a x, (a = 0 \/ a = 1) /\
  forall o K, optKind o = k -> optBarrier o = b -> optPayoff o = PVanilla ty K ->
    path_value o path = a * vanilla ty K x.
Proof.
  intros k b ty path NF.
  assert (X : exists a x, (a = 0 \/ a = 1) /\ forall o K, optKind o = k -> optBarrier o = b ->
     optPayoff o = PVanilla ty K -> path_value o path = a * terminal (optPayoff o) x).
  { destruct k; try easy.
    1-4: exists 1, (last path 0).
    5: exists 1, (Rmean path). 6: exists 1, (geometric_mean path).
    7: exists 1, (match ty with Call => lmax path | _ => lmin path end).
    8: exists (match b with Some b => if touched b path then 1 else 0 | None => 0 end), (last path 0).
    9: exists (match b with Some b => if touched b path then 0 else 1 | None => 0 end), (last path 0).
    all: split; [destruct b; try destruct (touched _ _); auto|].
    all: intros o K E1 E2 E3; unfold path_value; rewrite E1; rewrite ?E2, ?E3; cbn [getPayoffType]; try ring.
    all: try (destruct ty; ring).
    all: destruct b; try destruct (touched _ _); ring. }
  destruct X as (a & x & A & X). exists a, x. split; [easy|]. intros o K E1 E2 E3. rewrite (X o K E1 E2 E3), E3. reflexivity.
Qed.

(** Two options that differ in the strike only. *)
Definition strikes (ty : PayoffType) (K K' : R) (P P' : Pricer R) : Prop :=
  optKind (pcOption P) = optKind (pcOption P') /\ optBarrier (pcOption P) = optBarrier (pcOption P') /\
  optPayoff (pcOption P) = PVanilla ty K /\ optPayoff (pcOption P') = PVanilla ty K'.

Theorem C84_strike : forall env la P Q W w wm g N ty K K' v,
  wf_pricer P -> wf_pricer Q -> same_run P Q -> strikes ty K K' P Q -> K <= K' ->
  optKind (pcOption P) <> American -> lives_in P W w wm g -> (1 <= N <= INT_MAX)%Z -> (1 <= getDim g)%Z ->
  fst (calculatePrice env la P W N) = Ok v ->
  exists v', fst (calculatePrice env la Q W N) = Ok v' /\
    0 <= (match ty with Call => v - v' | _ => v' - v end) <= exp (- getR w * optT (pcOption P)) * (K' - K).
Proof.
  intros env la P Q W w wm g N ty K K' v WP WQ SR (S1 & S2 & S3 & S4) LK NA L LN LD E.
  destruct (two_prices env la P Q W w wm g N v WP (class_not_american _ WP NA) WQ
    (class_not_american _ WQ ltac:(congruence)) SR L LN LD E) as (paths & g' & NE & _ & R & -> & EQ).
  eexists. split; [exact EQ|]. pose proof (exp_pos (- getR w * optT (pcOption P))) as X.
  set (df := exp _) in *.
  assert (M : 0 <= Rmean (map (fun p => match ty with
                Call => path_value (pcOption P) p - path_value (pcOption Q) p
              | _ => path_value (pcOption Q) p - path_value (pcOption P) p end) paths) <= K' - K).
  { rewrite <- (Rmean_const 0 paths NE), <- (Rmean_const (K' - K) paths NE).
    assert (B : forall p, 0 <= (match ty with
                Call => path_value (pcOption P) p - path_value (pcOption Q) p
              | _ => path_value (pcOption Q) p - path_value (pcOption P) p end) <= K' - K).
    { intros p. destruct (value_form (optKind (pcOption P)) (optBarrier (pcOption P)) ty p) as (a & x & A & V);
        [eapply wf_vanilla_kind; eauto|].
      rewrite (V (pcOption P) K), (V (pcOption Q) K') by congruence.
      destruct A as [-> | ->]; destruct ty; cbn; unfold Rmax; destruct (Rle_dec _ 0), (Rle_dec _ 0); lra. }
    split; (apply Rmean_le; [easy|]); intros p _; apply B. }
  assert (Y : (match ty with Call => df * Rmean (map (path_value (pcOption P)) paths) - df * Rmean (map (path_value (pcOption Q)) paths)
          | _ => df * Rmean (map (path_value (pcOption Q)) paths) - df * Rmean (map (path_value (pcOption P)) paths) end)
     = df * Rmean (map (fun p => match ty with
                Call => path_value (pcOption P) p - path_value (pcOption Q) p
              | _ => path_value (pcOption Q) p - path_value (pcOption P) p end) paths)).
  { destruct ty; rewrite Rmean_minus; ring. }
  rewrite Y. split; [apply Rmult_le_pos; lra|apply Rmult_le_compat_l; lra].
Qed.
Print Assumptions C84_strike.

Theorem C84_convex : forall env la P1 P2 P3 W w wm g N ty K1 K3 th v2,
  wf_pricer P1 -> wf_pricer P2 -> wf_pricer P3 -> same_run P2 P1 -> same_run P2 P3 -> 0 <= th <= 1 ->
  strikes ty (th * K1 + (1 - th) * K3) K1 P2 P1 -> strikes ty (th * K1 + (1 - th) * K3) K3 P2 P3 ->
  optKind (pcOption P2) <> American -> lives_in P2 W w wm g -> (1 <= N <= INT_MAX)%Z -> (1 <= getDim g)%Z ->
  fst (calculatePrice env la P2 W N) = Ok v2 ->
  exists v1 v3, fst (calculatePrice env la P1 W N) = Ok v1 /\ fst (calculatePrice env la P3 W N) = Ok v3 /\
    v2 <= th * v1 + (1 - th) * v3.
Proof.
  intros env la P1 P2 P3 W w wm g N ty K1 K3 th v2 W1 W2 W3 SR1 SR3 TH (S1 & S2 & S3 & S4) (T1 & T2 & _ & T4) NA L LN LD E.
  destruct (two_prices env la P2 P1 W w wm g N v2 W2 (class_not_american _ W2 NA) W1
    (class_not_american _ W1 ltac:(congruence)) SR1 L LN LD E) as (paths & g' & NE & _ & R & E2 & E1).
  destruct (two_prices env la P2 P3 W w wm g N v2 W2 (class_not_american _ W2 NA) W3
    (class_not_american _ W3 ltac:(congruence)) SR3 L LN LD E) as (paths' & g'' & _ & _ & R' & _ & E3).
  rewrite R in R'. injection R' as <- <-.
  do 2 eexists. split; [exact E1|]. split; [exact E3|]. rewrite E2.
  pose proof (exp_pos (- getR w * optT (pcOption P2))) as X. set (df := exp _) in *.
  replace (th * (df * Rmean (map (path_value (pcOption P1)) paths)) + (1 - th) * (df * Rmean (map (path_value (pcOption P3)) paths)))
    with (df * Rmean (map (fun p => th * path_value (pcOption P1) p + (1 - th) * path_value (pcOption P3) p) paths)).
  2:{ rewrite Rmean_plus. rewrite (Rmean_ext_scale th (fun p => th * path_value (pcOption P1) p) (path_value (pcOption P1))) by easy.
      rewrite (Rmean_ext_scale (1 - th) (fun p => (1 - th) * path_value (pcOption P3) p) (path_value (pcOption P3))) by easy. ring. }
  apply Rmult_le_compat_l; [lra|]. apply Rmean_le; [easy|]. intros p _.
  destruct (value_form (optKind (pcOption P2)) (optBarrier (pcOption P2)) ty p) as (a & x & A & V);
    [eapply wf_vanilla_kind; eauto|].
  rewrite (V (pcOption P1) K1), (V (pcOption P2) _ eq_refl eq_refl S3), (V (pcOption P3) K3) by congruence.
  assert (C : vanilla ty (th * K1 + (1 - th) * K3) x <= th * vanilla ty K1 x + (1 - th) * vanilla ty K3 x).
  { assert (MX : forall y, 0 <= Rmax y 0 /\ y <= Rmax y 0) by (intros y; split; [apply Rmax_r|apply Rmax_l]).
    destruct ty; cbn; apply Rmax_lub; try (apply Rplus_le_le_0_compat; apply Rmult_le_pos; try lra; apply MX).
    - pose proof (Rmult_le_compat_l th _ _ (proj1 TH) (proj2 (MX (x - K1)))).
      pose proof (Rmult_le_compat_l (1 - th) _ _ ltac:(lra) (proj2 (MX (x - K3)))). lra.
    - pose proof (Rmult_le_compat_l th _ _ (proj1 TH) (proj2 (MX (K1 - x)))).
      pose proof (Rmult_le_compat_l (1 - th) _ _ ltac:(lra) (proj2 (MX (K3 - x)))). lra.
    - pose proof (Rmult_le_compat_l th _ _ (proj1 TH) (proj2 (MX (K1 - x)))).
      pose proof (Rmult_le_compat_l (1 - th) _ _ ltac:(lra) (proj2 (MX (K3 - x)))). lra. }
  destruct A as [-> | ->]; lra.
Qed.
Print Assumptions C84_convex.

(** ** C85.  The price as a function of the spot. *)
Definition no_barrier (k : OptionKind) : Prop :=
  k = European \/ k = ArithmeticAsian \/ k = GeometricAsian \/ k = FixedLookback.

Lemma value_spot : forall k ty path, no_barrier k -> path <> [] -> Forall (Rlt 0) path -> exists x, 0 < x /\
  forall o K lam, 0 < lam -> optKind o = k -> optPayoff o = PVanilla ty K ->
    path_value o (map (Rmult lam) path) = vanilla ty K (lam * x).
Proof.
  intros k ty path NB NE F.
  assert (IN : forall x, In x path -> 0 < x) by (now rewrite Forall_forall in F).
  assert (MN : 0 < Rmean path).
  { pose proof (Rmean_bounds path (lmin path) (lmax path) NE
      (fun x I => conj (lmin_le path x I) (lmax_ge path x I))). pose proof (IN _ (lmin_in path NE)). lra. }
  destruct NB as [-> | [-> | [-> | ->]]].
  - exists (last path 0). split; [apply IN, last_in, NE|]. intros o K lam H E1 E2.
    unfold path_value. rewrite E1, E2, last_scale. reflexivity.
  - exists (Rmean path). split; [easy|]. intros o K lam H E1 E2.
    unfold path_value. rewrite E1, E2, Rmean_scale. reflexivity.
  - exists (geometric_mean path). split; [apply exp_pos|]. intros o K lam H E1 E2.
    unfold path_value. rewrite E1, E2, geometric_scale by easy. reflexivity.
  - exists (match ty with Call => lmax path | _ => lmin path end). split.
    + destruct ty; apply IN; [apply lmax_in|apply lmin_in|apply lmin_in]; easy.
    + intros o K lam H E1 E2. unfold path_value. rewrite E1, E2. cbn [getPayoffType].
      destruct ty; rewrite ?lmax_scale, ?lmin_scale by lra; reflexivity.
Qed.

Lemma value_spot1 : forall k ty path, no_barrier k -> path <> [] -> Forall (Rlt 0) path -> exists x, 0 < x /\
  forall o K, optKind o = k -> optPayoff o = PVanilla ty K ->
    path_value o path = vanilla ty K x /\
    forall lam, 0 < lam -> path_value o (map (Rmult lam) path) = vanilla ty K (lam * x).
Proof.
  intros k ty path NB NE F. destruct (value_spot k ty path NB NE F) as (x & X & H). exists x. split; [easy|].
  intros o K E1 E2. split; [|intros lam L; now apply H].
  specialize (H o K 1 Rlt_0_1 E1 E2). rewrite Rmult_1_l in H. rewrite <- H. f_equal.
  clear. induction path as [|y l IH]; [reflexivity|]. cbn. rewrite <- IH. f_equal. lra.
Qed.

(** When the spot grows by a factor [lam >= 1], a call grows by at least that factor, and a
    put falls. *)
Theorem C85_spot : forall env la lam P W W' N ty K v, 1 <= lam ->
  rescaled lam P P W W' -> wf_pricer P -> no_barrier (optKind (pcOption P)) ->
  optPayoff (pcOption P) = PVanilla ty K -> (1 <= N <= INT_MAX)%Z ->
  fst (calculatePrice env la P W N) = Ok v ->
  exists v', fst (calculatePrice env la P W' N) = Ok v' /\
    match ty with Call => 0 <= v /\ lam * v <= v' | _ => 0 <= v' <= v end.
Proof.
  intros env la lam P W W' N ty K v H RS WP NB PP LN E.
  assert (NA : pcClass P <> CAmerican).
  { apply class_not_american; [easy|]. intros C. rewrite C in NB. destruct NB as [? | [? | [? | ?]]]; discriminate. }
  assert (K0 : 0 <= K).
  { destruct WP as [_ (_ & Y & _)]. rewrite PP in Y.
    destruct NB as [X | [X | [X | X]]]; rewrite X in Y; destruct Y as (t' & K' & _ & Y & Z); injection Z as -> ->; easy. }
  destruct (rescaled_prices env la lam P P W W' N v RS WP WP NA NA LN E) as (df & paths & w0 & wm0 & g0 & g1 & L0 & EDF & R0 & DF & NE & PN & -> & E').
  eexists. split; [exact E'|].
  assert (P0 : 0 <= df * Rmean (map (path_value (pcOption P)) paths)).
  { apply Rmult_le_pos; [lra|]. rewrite <- (Rmean_const 0 paths NE). apply Rmean_le; [easy|].
    intros p I. apply path_value_nonneg. now apply PN. }
  assert (P1 : 0 <= df * Rmean (map (fun p => path_value (pcOption P) (map (Rmult lam) p)) paths)).
  { apply Rmult_le_pos; [lra|]. rewrite <- (Rmean_const 0 paths NE). apply Rmean_le; [easy|].
    intros p I. apply path_value_nonneg. destruct (PN p I) as [X _]. destruct p; easy. }
  assert (C : forall p, In p paths -> match ty with
      Call => lam * path_value (pcOption P) p <= path_value (pcOption P) (map (Rmult lam) p)
    | _ => path_value (pcOption P) (map (Rmult lam) p) <= path_value (pcOption P) p end).
  { intros p I. destruct (PN p I) as [X Y].
    destruct (value_spot1 _ ty p NB X Y) as (x & X0 & V). destruct (V (pcOption P) K eq_refl PP) as [-> V2].
    rewrite V2 by lra.
    assert (LX : x <= lam * x) by (rewrite <- (Rmult_1_l x) at 1; apply Rmult_le_compat_r; lra).
    assert (LK : K <= lam * K) by (rewrite <- (Rmult_1_l K) at 1; apply Rmult_le_compat_r; lra).
    destruct ty; cbn; unfold Rmax; destruct (Rle_dec _ 0), (Rle_dec _ 0); nra. }
  destruct ty.
  - split; [easy|]. replace (lam * (df * Rmean (map (path_value (pcOption P)) paths))) with
      (df * (lam * Rmean (map (path_value (pcOption P)) paths))) by ring.
    apply Rmult_le_compat_l; [lra|].
    rewrite <- (Rmean_ext_scale lam (fun p => lam * path_value (pcOption P) p)) by easy. apply Rmean_le; auto.
  - split; [easy|]. apply Rmult_le_compat_l; [lra|]. apply Rmean_le; auto.
  - split; [easy|]. apply Rmult_le_compat_l; [lra|]. apply Rmean_le; auto.
Qed.
Print Assumptions C85_spot.

(** Convexity: three worlds whose spots are S, lam S and (th + (1 - th) lam) S. *)
Theorem C85_convex : forall env la lam th P W W' W'' N ty K v, 0 < lam -> 0 <= th <= 1 ->
  rescaled lam P P W W' -> rescaled (th + (1 - th) * lam) P P W W'' -> wf_pricer P ->
  no_barrier (optKind (pcOption P)) -> optPayoff (pcOption P) = PVanilla ty K -> (1 <= N <= INT_MAX)%Z ->
  fst (calculatePrice env la P W N) = Ok v ->
  exists v' v'', fst (calculatePrice env la P W' N) = Ok v' /\ fst (calculatePrice env la P W'' N) = Ok v'' /\
    v'' <= th * v + (1 - th) * v'.
Proof.
  intros env la lam th P W W' W'' N ty K v H TH RS RS2 WP NB PP LN E.
  assert (NA : pcClass P <> CAmerican).
  { apply class_not_american; [easy|]. intros C. rewrite C in NB. destruct NB as [? | [? | [? | ?]]]; discriminate. }
  destruct (rescaled_prices env la lam P P W W' N v RS WP WP NA NA LN E)
    as (df & paths & w0 & wm0 & g0 & g1 & L0 & EDF & R0 & DF & NE & PN & -> & E').
  destruct (rescaled_prices env la _ P P W W'' N _ RS2 WP WP NA NA LN E)
    as (df2 & paths2 & w2 & wm2 & g2 & g3 & L2 & EDF2 & R2 & _ & _ & _ & _ & E'').
  assert (X : w2 = w0 /\ wm2 = wm0 /\ g2 = g0).
  { destruct L0 as (A1 & A2 & A3), L2 as (B1 & B2 & B3). repeat split; congruence. }
  destruct X as (-> & -> & ->). rewrite R0 in R2. injection R2 as <- <-. rewrite EDF2, <- EDF in E''.
  do 2 eexists. split; [exact E'|]. split; [exact E''|].
  replace (th * (df * Rmean (map (path_value (pcOption P)) paths)) +
           (1 - th) * (df * Rmean (map (fun p => path_value (pcOption P) (map (Rmult lam) p)) paths)))
    with (df * Rmean (map (fun p => th * path_value (pcOption P) p
                                    + (1 - th) * path_value (pcOption P) (map (Rmult lam) p)) paths)).
  2:{ rewrite Rmean_plus. rewrite (Rmean_ext_scale th (fun p => th * path_value (pcOption P) p) (path_value (pcOption P))) by easy.
      rewrite (Rmean_ext_scale (1 - th) (fun p => (1 - th) * path_value (pcOption P) (map (Rmult lam) p))
        (fun p => path_value (pcOption P) (map (Rmult lam) p))) by easy. ring. }
  apply Rmult_le_compat_l; [lra|]. apply Rmean_le; [easy|]. intros p I. destruct (PN p I) as [X Y].
  destruct (value_spot1 _ ty p NB X Y) as (x & X0 & V). destruct (V (pcOption P) K eq_refl PP) as [-> V2].
  assert (0 < th + (1 - th) * lam).
  { destruct (Rle_lt_or_eq_dec 0 th (proj1 TH)) as [A| <-]; [|lra].
    assert (0 <= (1 - th) * lam) by (apply Rmult_le_pos; lra). lra. }
  rewrite !V2 by lra.
  assert (MX : forall y, 0 <= Rmax y 0 /\ y <= Rmax y 0) by (intros y; split; [apply Rmax_r|apply Rmax_l]).
  destruct ty; cbn; apply Rmax_lub; try (apply Rplus_le_le_0_compat; apply Rmult_le_pos; try lra; apply MX).
  - pose proof (Rmult_le_compat_l th _ _ (proj1 TH) (proj2 (MX (x - K)))).
    pose proof (Rmult_le_compat_l (1 - th) _ _ ltac:(lra) (proj2 (MX (lam * x - K)))). lra.
  - pose proof (Rmult_le_compat_l th _ _ (proj1 TH) (proj2 (MX (K - x)))).
    pose proof (Rmult_le_compat_l (1 - th) _ _ ltac:(lra) (proj2 (MX (K - lam * x)))). lra.
  - pose proof (Rmult_le_compat_l th _ _ (proj1 TH) (proj2 (MX (K - x)))).
    pose proof (Rmult_le_compat_l (1 - th) _ _ ltac:(lra) (proj2 (MX (K - lam * x)))). lra.
Qed.
Print Assumptions C85_convex.

(** ** C86.  Pricing in two batches on the same generator is pricing once: the paths of the
    second batch continue the first. *)
Lemma runs_app : forall {T A} (sim : SM T A) n k g,
  runs sim (n + k) g =
    match runs sim n g with
    | (Ok l, g1) => match runs sim k g1 with
                    | (Ok l', g2) => (Ok (l ++ l')%list, g2)
                    | (Throw e, g2) => (Throw e, g2)
                    | (UB, g2) => (UB, g2)
                    end
    | (Throw e, g1) => (Throw e, g1)
    | (UB, g1) => (UB, g1)
    end.
Proof.
  intros T A sim n k. induction n as [|n IH]; intros g; cbn [runs Nat.add].
  - destruct (runs sim k g) as [[l| |] g2]; reflexivity.
  - destruct (sim g) as [[x| |] g1]; try reflexivity. rewrite IH.
    destruct (runs sim n g1) as [[l| |] g2]; try reflexivity.
    destruct (runs sim k g2) as [[l'| |] g3]; reflexivity.
Qed.

Lemma Rmean_app : forall l l', l <> [] -> l' <> [] ->
  Rmean (l ++ l')%list = (INR (length l) * Rmean l + INR (length l') * Rmean l') / (INR (length l) + INR (length l')).
Proof.
  intros l l' N N'. unfold Rmean. rewrite app_length, plus_INR.
  assert (S : Rsum (l ++ l')%list = Rsum l + Rsum l').
  { clear. unfold Rsum. induction l as [|x l IH]; cbn; [lra|]. rewrite IH. lra. }
  rewrite S.
  assert (0 < INR (length l)) by (destruct l; [easy|apply lt_0_INR; cbn; lia]).
  assert (0 < INR (length l')) by (destruct l'; [easy|apply lt_0_INR; cbn; lia]).
  field. lra.
Qed.

Lemma nth_error_list : forall {A} (l l' : list A), (forall i, nth_error l i = nth_error l' i) -> l = l'.
Proof.
  intros A. induction l as [|x l IH]; intros [|y l'] H; [reflexivity|specialize (H 0%nat); discriminate|specialize (H 0%nat); discriminate|].
  f_equal; [specialize (H 0%nat); cbn in H; congruence|]. apply IH. intros i. apply (H (S i)).
Qed.

Lemma moved_unique : forall P W g W1 W2, moved P W g W1 -> moved P W g W2 -> W1 = W2.
Proof.
  intros P W g [m1 g1] [m2 g2] (A1 & _ & A3) (B1 & _ & B3). cbn in *. subst. f_equal.
  apply nth_error_list. intros i. now rewrite A3, B3.
Qed.

Lemma moved_lives : forall P W w wm g g' W', lives_in P W w wm g -> moved P W g' W' -> lives_in P W' w wm g'.
Proof.
  intros P W w wm g g' W' (L1 & L2 & L3) (M1 & _ & M3). unfold lives_in, market_at in *. rewrite M1, M3, Nat.eqb_refl. auto.
Qed.

Lemma moved_trans : forall P W g1 W1 g2 W2, moved P W g1 W1 -> moved P W1 g2 W2 -> moved P W g2 W2.
Proof.
  intros P W g1 W1 g2 W2 (A1 & A2 & A3) (B1 & B2 & B3). repeat split; try congruence.
  intros i. rewrite B3, A3. now destruct (Nat.eqb i (moGen (pcModel P))).
Qed.

Theorem C86_batches : forall env la P W w wm g N1 N2,
  wf_pricer P -> pcClass P <> CAmerican -> lives_in P W w wm g -> (1 <= getDim g)%Z ->
  (1 <= N1)%Z -> (1 <= N2)%Z -> (N1 + N2 <= INT_MAX)%Z ->
  let first := calculatePrice env la P W N1 in
  let second := calculatePrice env la P (snd first) N2 in
  let whole := calculatePrice env la P W (N1 + N2) in
  match fst first, fst second with
  | Ok v1, Ok v2 => fst whole = Ok ((IZR N1 * v1 + IZR N2 * v2) / IZR (N1 + N2)) /\ snd whole = snd second
  | Ok _, r => fst whole = r /\ snd whole = snd second
  | r, _ => fst whole = r /\ snd whole = snd first
  end.
Proof.
  intros env la P W w wm g N1 N2 WP NA L LD L1 L2 L12 first second whole.
  pose proof (C41_discounted_mean env la P W w wm g N1 WP NA L ltac:(lia) LD) as H1. cbv zeta in H1. fold first in H1.
  pose proof (C41_discounted_mean env la P W w wm g (N1 + N2) WP NA L ltac:(lia) LD) as H. cbv zeta in H. fold whole in H.
  rewrite Z2Nat.inj_add in H by lia. rewrite runs_app in H.
  pose proof (keeps_runs _ (keeps_simulate env (moModel (pcModel P)) wm (optT (pcOption P))) (Z.to_nat N1) g) as [KD _].
  destruct (runs _ (Z.to_nat N1) g) as [[paths| |] g1] eqn:R1; destruct H1 as [M1 V1]; cbn [snd] in KD.
  2,3: destruct H as [M V]; rewrite V1, V; (split; [reflexivity|]); eapply moved_unique; eauto.
  pose proof (moved_lives _ _ _ _ _ _ _ L M1) as L'.
  pose proof (C41_discounted_mean env la P (snd first) w wm g1 N2 WP NA L' ltac:(lia) ltac:(unfold getDim in *; lia)) as H2.
  cbv zeta in H2. fold second in H2.
  destruct (runs _ (Z.to_nat N2) g1) as [[paths2| |] g2] eqn:R2; destruct H2 as [M2 V2]; destruct H as [M V];
    rewrite V1, V2, V; (split; [|exact (moved_unique _ _ _ _ _ M (moved_trans _ _ _ _ _ _ M1 M2))]); try reflexivity.
  f_equal. rewrite map_app.
  pose proof (runs_length _ _ _ _ _ R1) as N1'. pose proof (runs_length _ _ _ _ _ R2) as N2'.
  rewrite Rmean_app; [|destruct paths; cbn in *; [lia|easy]|destruct paths2; cbn in *; [lia|easy]].
  rewrite !map_length, N1', N2', !INR_IZR_INZ, !Z2Nat.id, plus_IZR by lia.
  assert (0 < IZR N1 + IZR N2) by (rewrite <- plus_IZR; apply (IZR_lt 0); lia).
  field. lra.
Qed.
Print Assumptions C86_batches.

(** ** C87.  Pricing runs interfere through a shared generator only. *)
Definition put_gen {T} (k : nat) (g : Gen T) (l : list (Gen T)) : list (Gen T) :=
  (firstn k l ++ g :: skipn (S k) l)%list.

Lemma put_gen_nth : forall {T} k (g : Gen T) l i, (k < length l)%nat ->
  nth_error (put_gen k g l) i = if Nat.eqb i k then Some g else nth_error l i.
Proof.
  intros T k g l i H. unfold put_gen. revert k i H. induction l as [|x l IH]; intros [|k] i H; cbn in H; try lia.
  - destruct i; reflexivity.
  - destruct i as [|i]; [reflexivity|]. cbn [firstn app skipn nth_error Nat.eqb]. apply IH. lia.
Qed.

Lemma calc_shape : forall {T} {num : Num T} env la (P : Pricer T) W N,
  (calculatePrice env la P W N = (UB, W) /\
   forall W', wMarkets W' = wMarkets W -> nth_error (wGens W') (moGen (pcModel P)) = nth_error (wGens W) (moGen (pcModel P)) ->
     calculatePrice env la P W' N = (UB, W')) \/
  (moGen (pcModel P) < length (wGens W))%nat /\ exists r g',
   forall W', wMarkets W' = wMarkets W -> nth_error (wGens W') (moGen (pcModel P)) = nth_error (wGens W) (moGen (pcModel P)) ->
     calculatePrice env la P W' N = (r, mkWorld (wMarkets W') (put_gen (moGen (pcModel P)) g' (wGens W'))).
Proof.
  intros T num env la P W N.
  destruct (market_at W (pcMarket P)) as [w| |] eqn:L1.
  2,3: left; split; [unfold calculatePrice; now rewrite L1|]; intros W' E1 E2; unfold calculatePrice;
       unfold market_at in *; rewrite E1, L1; reflexivity.
  destruct (market_at W (Some (moMarket (pcModel P)))) as [wm| |] eqn:L2.
  2,3: left; split; [unfold calculatePrice; now rewrite L1, L2|]; intros W' E1 E2; unfold calculatePrice;
       unfold market_at in *; rewrite E1, L1, L2; reflexivity.
  destruct (nth_error (wGens W) (moGen (pcModel P))) as [g|] eqn:L3.
  2: left; split; [unfold calculatePrice; now rewrite L1, L2, L3|]; intros W' E1 E2; unfold calculatePrice;
     rewrite E2; unfold market_at in *; rewrite E1, L1, L2; reflexivity.
  right. split; [apply nth_error_Some; congruence|].
  destruct (calculatePrice env la P W N) as [r W1] eqn:E.
  unfold calculatePrice in E. rewrite L1, L2, L3 in E. cbv zeta in E.
  match type of E with (let (_, _) := ?m in _) = _ => destruct m as [r' g'] eqn:E1 end. exists r', g'.
  intros W' E2 E3. unfold calculatePrice. rewrite E3. unfold market_at in *. rewrite E2, L1, L2.
  rewrite E1. reflexivity.
Qed.

Theorem C87_no_interference : forall T (num : Num T) env la (P Q : Pricer T) W N M,
  moGen (pcModel P) <> moGen (pcModel Q) ->
  fst (calculatePrice env la Q (snd (calculatePrice env la P W N)) M) = fst (calculatePrice env la Q W M) /\
  fst (calculatePrice env la P (snd (calculatePrice env la Q W M)) N) = fst (calculatePrice env la P W N) /\
  snd (calculatePrice env la Q (snd (calculatePrice env la P W N)) M) =
    snd (calculatePrice env la P (snd (calculatePrice env la Q W M)) N).
Proof.
  intros T num env la P Q W N M D. destruct W as [ms gs].
  destruct (calc_shape env la P (mkWorld ms gs) N) as [[HP HP']|(LP & r & g & HP)];
  destruct (calc_shape env la Q (mkWorld ms gs) M) as [[HQ HQ']|(LQ & r' & g' & HQ)]; cbn [wMarkets wGens] in *.
  - rewrite HP, HQ. cbn [fst snd]. rewrite HP, HQ. auto.
  - rewrite HP, (HQ (mkWorld ms gs)) by easy. cbn [fst snd wMarkets wGens]. rewrite (HQ (mkWorld ms gs)) by easy.
    rewrite HP'; [auto|easy|]. cbn [wGens]. rewrite put_gen_nth by easy. destruct (Nat.eqb_spec (moGen (pcModel P)) (moGen (pcModel Q))); [congruence|reflexivity].
  - rewrite HQ, (HP (mkWorld ms gs)) by easy. cbn [fst snd wMarkets wGens]. rewrite (HP (mkWorld ms gs)) by easy.
    rewrite HQ'; [auto|easy|]. cbn [wGens]. rewrite put_gen_nth by easy. destruct (Nat.eqb_spec (moGen (pcModel Q)) (moGen (pcModel P))); [congruence|reflexivity].
  - rewrite (HQ (mkWorld ms gs)), (HP (mkWorld ms gs)) by easy. cbn [fst snd wMarkets wGens].
    assert (E1 : nth_error (put_gen (moGen (pcModel P)) g gs) (moGen (pcModel Q)) = nth_error gs (moGen (pcModel Q))).
    { rewrite put_gen_nth by easy. destruct (Nat.eqb_spec (moGen (pcModel Q)) (moGen (pcModel P))); [congruence|reflexivity]. }
    assert (E2 : nth_error (put_gen (moGen (pcModel Q)) g' gs) (moGen (pcModel P)) = nth_error gs (moGen (pcModel P))).
    { rewrite put_gen_nth by easy. destruct (Nat.eqb_spec (moGen (pcModel P)) (moGen (pcModel Q))); [congruence|reflexivity]. }
    rewrite (HQ (mkWorld ms (put_gen (moGen (pcModel P)) g gs)) eq_refl E1).
    rewrite (HP (mkWorld ms (put_gen (moGen (pcModel Q)) g' gs)) eq_refl E2). cbn [fst snd wMarkets wGens].
    split; [reflexivity|]. split; [reflexivity|]. f_equal.
    assert (LEN : forall k (x : Gen T) l, (k < length l)%nat -> length (put_gen k x l) = length l).
    { intros k x l H. unfold put_gen. rewrite app_length. cbn [length]. rewrite firstn_length, skipn_length. lia. }
    apply nth_error_list. intros i. rewrite !put_gen_nth by (rewrite ?LEN by easy; easy).
    destruct (Nat.eqb_spec i (moGen (pcModel Q))), (Nat.eqb_spec i (moGen (pcModel P))); congruence.
Qed.
Print Assumptions C87_no_interference.

(** ** C88.  Moving the barrier away from the prices makes the knock-in cheaper and the
    knock-out dearer. *)
Definition farther (b b' : R * BarrierDirection) : Prop :=
  snd b = snd b' /\ match snd b with Up => fst b <= fst b' | Down => fst b' <= fst b end.

Lemma touched_farther : forall b b' path, farther b b' -> touched b' path = true -> touched b path = true.
Proof.
  intros [B d] [B' d'] path [E H] T. cbn in *. subst d'. apply touched_spec in T. destruct T as (x & I & X).
  apply touched_spec. exists x. split; [easy|]. destruct d; cbn in *; lra.
Qed.

Theorem C88_barrier_level : forall env la P Q W w wm g N b b' v,
  wf_pricer P -> wf_pricer Q -> same_run P Q ->
  optKind (pcOption P) = KnockIn \/ optKind (pcOption P) = KnockOut ->
  optKind (pcOption Q) = optKind (pcOption P) -> optPayoff (pcOption Q) = optPayoff (pcOption P) ->
  optBarrier (pcOption P) = Some b -> optBarrier (pcOption Q) = Some b' -> farther b b' ->
  lives_in P W w wm g -> (1 <= N <= INT_MAX)%Z -> (1 <= getDim g)%Z ->
  fst (calculatePrice env la P W N) = Ok v ->
  exists v', fst (calculatePrice env la Q W N) = Ok v' /\
    (optKind (pcOption P) = KnockIn -> v' <= v) /\ (optKind (pcOption P) = KnockOut -> v <= v').
Proof.
  intros env la P Q W w wm g N b b' v WP WQ SR KP KQ PQ BP BQ F L LN LD E.
  assert (NA : optKind (pcOption P) <> American) by (destruct KP as [-> | ->]; discriminate).
  destruct (two_prices env la P Q W w wm g N v WP (class_not_american _ WP NA) WQ
    (class_not_american _ WQ ltac:(congruence)) SR L LN LD E) as (paths & g' & NE & _ & R & -> & EQ).
  eexists. split; [exact EQ|]. pose proof (exp_pos (- getR w * optT (pcOption P))) as X.
  assert (NN : forall p, 0 <= terminal (optPayoff (pcOption P)) (last p 0)) by (intros; apply terminal_nonneg).
  split; intros K; (apply Rmult_le_compat_l; [lra|]); (apply Rmean_le; [easy|]); intros p _;
    unfold path_value; rewrite KQ, K, PQ, BP, BQ; specialize (NN p);
    pose proof (touched_farther b b' p F) as TF; destruct (touched b' p), (touched b p); try lra;
    specialize (TF eq_refl); discriminate.
Qed.
Print Assumptions C88_barrier_level.

(** ** Concrete cases.  A pricer on a GBM model and a pseudo-random generator always
    returns a price, so the hypotheses of C82-C88 are met for every N. *)
Lemma gbm_priced : forall env la P W w wm g N d,
  wf_pricer P -> pcClass P <> CAmerican -> lives_in P W w wm g -> mdKind (moModel (pcModel P)) = MGBM ->
  deref (mdStock (moModel (pcModel P))) wm = Ok d -> gQuasi g = None -> (1 <= gDim g <= INT_MAX)%Z ->
  (1 <= N <= INT_MAX)%Z -> exists v : R, fst (calculatePrice env la P W N) = Ok v.
Proof.
  intros env la P W w wm g N d WP NA L MK D Q G LN.
  pose proof (C41_discounted_mean env la P W w wm g N WP NA L LN ltac:(unfold getDim; lia)) as H. cbv zeta in H.
  assert (E : exists paths g', runs (simulatePrices env (moModel (pcModel P)) wm (optT (pcOption P))) (Z.to_nat N) g = (Ok paths, g')).
  { clear H L. revert g Q G. induction (Z.to_nat N) as [|n IH]; intros g Q G; [now exists [], g|]. cbn [runs].
    pose proof (simulate_outcome env (moModel (pcModel P)) wm d (optT (pcOption P)) g D Q ltac:(lia)) as O.
    rewrite MK in O. cbn [kind_dists forallb dist_ok] in O. unfold n0, n1 in O. cbn [nleb nofZ Rnum] in O.
    rewrite Rle_bool_false in O by lra. cbn [negb andb] in O. destruct O as (p & g1 & O).
    pose proof (keeps_simulate env (moModel (pcModel P)) wm (optT (pcOption P)) g) as [K1 K2]. rewrite O in *. cbn [snd] in *.
    destruct (IH g1) as (l & g2 & E2); [congruence|lia|]. rewrite E2. eauto. }
  destruct E as (paths & g' & E). rewrite E in H. destruct H as [_ H]. eauto.
Qed.

Definition w_at (S0 : R) : Market R := mkMarket (5/100) [("AAPL"%string, 0%nat)] [] [mkStock S0 (2/10) None] [].
Definition world_at (S0 : R) (dim : Z) : World R := mkWorld [w_at S0] [Pseudo_ctor1 dim 7; Pseudo_ctor1 dim 7].
Definition pricer_on (c : PricerClass) (k : OptionKind) (p : Payoff R) (b : option (R * BarrierDirection)) (gen : nat) : Pricer R :=
  mkPricer c (mkOption k "AAPL" 1 p b 0) (Some 0%nat) (mkModelObj (mkModel "AAPL" 0 MGBM) 0 gen) None None.

Lemma pricer_lives : forall c k p b S0 dim, lives_in (pricer_on c k p b 0) (world_at S0 dim) (w_at S0) (w_at S0) (Pseudo_ctor1 dim 7).
Proof. easy. Qed.
Lemma pricer_wf : forall c k ty K b gen, accepts c k = true -> call_or_put ty -> 0 <= K ->
  match k with Digital | DoubleDigitalK | FloatingLookback => False
  | KnockIn | KnockOut => exists x, b = Some x | _ => b = None end ->
  wf_pricer (pricer_on c k (PVanilla ty K) b gen).
Proof.
  intros c k ty K b gen A CP K0 B. split; [exact A|]. unfold wf_option; cbn. split; [lra|].
  destruct k; try contradiction; split; eauto.
Qed.
Lemma pricer_priced : forall env la c k ty K b S0 dim N, wf_pricer (pricer_on c k (PVanilla ty K) b 0) -> c <> CAmerican ->
  (1 <= dim <= INT_MAX)%Z -> (1 <= N <= INT_MAX)%Z ->
  exists v : R, fst (calculatePrice env la (pricer_on c k (PVanilla ty K) b 0) (world_at S0 dim) N) = Ok v.
Proof.
  intros. eapply (gbm_priced env la _ _ (w_at S0) (w_at S0) (Pseudo_ctor1 dim 7) N (mkStock S0 (2/10) None)); auto.
  apply pricer_lives.
Qed.
Lemma pricer_rescaled : forall lam c k p b p' b' S0 dim, 0 < S0 -> (1 <= dim)%Z ->
  rescaled lam (pricer_on c k p b 0) (pricer_on c k p' b' 0) (world_at S0 dim) (world_at (lam * S0) dim).
Proof.
  intros. exists (w_at S0), (w_at S0), (w_at (lam * S0)), (w_at (lam * S0)), (mkStock S0 (2/10) None), (mkStock (lam * S0) (2/10) None), (Pseudo_ctor1 dim 7).
  repeat split; cbn; auto.
Qed.

Ltac pwf := apply pricer_wf; [reflexivity|now (left + right)|lra|cbn; eauto].

Example C82_ex : forall env la N, (1 <= N <= INT_MAX)%Z -> exists v,
  fst (calculatePrice env la (pricer_on CSinglePath European (PVanilla Call 90) None 0) (world_at 100 1) N) = Ok v /\
  fst (calculatePrice env la (pricer_on (CAsian Geometric) GeometricAsian (PVanilla Call 90) None 0) (world_at 100 1) N) = Ok v.
Proof.
  intros env la N LN.
  destruct (pricer_priced env la CSinglePath European Call 90 None 100 1 N ltac:(pwf) ltac:(easy) ltac:(unfold INT_MAX; lia) LN) as [v E].
  exists v. split; [exact E|].
  eapply (C82_one_date env la (pricer_on CSinglePath European (PVanilla Call 90) None 0) _ _ (w_at 100) (w_at 100) (mkStock 100 (2/10) None) _ N Call 90); try exact E; try easy; try pwf.
  - right. now left.
  - cbn. lra.
Qed.
Example C83_ex : forall env la N, (1 <= N <= INT_MAX)%Z -> exists v,
  fst (calculatePrice env la (pricer_on (CBarrier KIn) KnockIn (PVanilla Put 100) (Some (90, Down)) 0) (world_at 100 52) N) = Ok v /\
  fst (calculatePrice env la (pricer_on (CBarrier KIn) KnockIn (PVanilla Put (3 * 100)) (Some (3 * 90, Down)) 0) (world_at (3 * 100) 52) N) = Ok (3 * v).
Proof.
  intros env la N LN.
  destruct (pricer_priced env la (CBarrier KIn) KnockIn Put 100 (Some (90, Down)) 100 52 N ltac:(pwf) ltac:(easy) ltac:(unfold INT_MAX; lia) LN) as [v E].
  exists v. split; [exact E|].
  apply (C83_homogeneous env la 3 (pricer_on (CBarrier KIn) KnockIn (PVanilla Put 100) (Some (90, Down)) 0) _ (world_at 100 52)); try easy; try pwf; try lra.
  apply pricer_rescaled; [lra|lia].
Qed.
Example C84_ex : forall env la N, (1 <= N <= INT_MAX)%Z -> exists v v',
  fst (calculatePrice env la (pricer_on (CLookback Fixed) FixedLookback (PVanilla Call 90) None 0) (world_at 100 52) N) = Ok v /\
  fst (calculatePrice env la (pricer_on (CLookback Fixed) FixedLookback (PVanilla Call 110) None 0) (world_at 100 52) N) = Ok v' /\
  0 <= v - v' <= exp (- (5/100) * 1) * (110 - 90).
Proof.
  intros env la N LN.
  destruct (pricer_priced env la (CLookback Fixed) FixedLookback Call 90 None 100 52 N ltac:(pwf) ltac:(easy) ltac:(unfold INT_MAX; lia) LN) as [v E].
  destruct (C84_strike env la (pricer_on (CLookback Fixed) FixedLookback (PVanilla Call 90) None 0) (pricer_on (CLookback Fixed) FixedLookback (PVanilla Call 110) None 0) (world_at 100 52) (w_at 100) (w_at 100) (Pseudo_ctor1 52 7) N Call 90 110 v
    ltac:(pwf) ltac:(pwf) ltac:(easy) ltac:(easy) ltac:(lra) ltac:(easy) ltac:(easy) LN ltac:(cbn; lia) E) as (v' & E' & B).
  exists v, v'. auto.
Qed.
Example C85_ex : forall env la N, (1 <= N <= INT_MAX)%Z -> exists v v',
  fst (calculatePrice env la (pricer_on CSinglePath European (PVanilla Call 90) None 0) (world_at 100 52) N) = Ok v /\
  fst (calculatePrice env la (pricer_on CSinglePath European (PVanilla Call 90) None 0) (world_at (3/2 * 100) 52) N) = Ok v' /\
  0 <= v /\ 3/2 * v <= v'.
Proof.
  intros env la N LN.
  destruct (pricer_priced env la CSinglePath European Call 90 None 100 52 N ltac:(pwf) ltac:(easy) ltac:(unfold INT_MAX; lia) LN) as [v E].
  destruct (C85_spot env la (3/2) (pricer_on CSinglePath European (PVanilla Call 90) None 0) (world_at 100 52) (world_at (3/2 * 100) 52) N Call 90 v ltac:(lra)
    (pricer_rescaled (3/2) CSinglePath European (PVanilla Call 90) None _ _ 100 52 ltac:(lra) ltac:(lia))
    ltac:(pwf) ltac:(now left) ltac:(easy) LN E) as (v' & E' & B).
  exists v, v'. auto.
Qed.
(** 10 paths, then 20 more with the same generator. *)
Example C86_ex : forall env la, exists v1 v2 W1 W2,
  let P := pricer_on CSinglePath European (PVanilla Call 90) None 0 in
  calculatePrice env la P (world_at 100 52) 10 = (Ok v1, W1) /\ calculatePrice env la P W1 20 = (Ok v2, W2) /\
  calculatePrice env la P (world_at 100 52) 30 = (Ok ((10 * v1 + 20 * v2) / 30), W2).
Proof.
  intros env la. set (P := pricer_on CSinglePath European (PVanilla Call 90) None 0).
  destruct (pricer_priced env la CSinglePath European Call 90 None 100 52 10 ltac:(pwf) ltac:(easy) ltac:(unfold INT_MAX; lia) ltac:(unfold INT_MAX; lia)) as [v1 E1].
  destruct (pricer_priced env la CSinglePath European Call 90 None 100 52 30 ltac:(pwf) ltac:(easy) ltac:(unfold INT_MAX; lia) ltac:(unfold INT_MAX; lia)) as [v3 E3].
  fold P in E1, E3.
  pose proof (C86_batches env la P (world_at 100 52) (w_at 100) (w_at 100) (Pseudo_ctor1 52 7) 10 20 ltac:(pwf) ltac:(easy) ltac:(easy) ltac:(cbn; lia) ltac:(lia) ltac:(lia) ltac:(unfold INT_MAX; lia)) as H.
  cbv zeta in H. rewrite E1 in H. change (10 + 20)%Z with 30%Z in H.
  destruct (calculatePrice env la P (world_at 100 52) 10) as [r1 W1] eqn:Q1. cbn [fst snd] in *. subst r1.
  destruct (calculatePrice env la P W1 20) as [r2 W2] eqn:E2. cbn [fst snd] in *.
  destruct (calculatePrice env la P (world_at 100 52) 30) as [r3 W3] eqn:Q3. cbn [fst snd] in *. subst r3.
  destruct r2 as [v2| |]; destruct H as [H ->]; try discriminate.
  exists v1, v2, W1, W2. cbv zeta. split; [exact Q1|]. split; [exact E2|]. now rewrite <- H.
Qed.
(** Two pricers of one option whose models have generators of their own. *)
Example C87_ex : forall env la N M,
  let P i := mkPricer CSinglePath (pcOption (pricer_on CSinglePath European (PVanilla Call 90) None 0)) (Some 0%nat) (mkModelObj (mkModel "AAPL" 0 MGBM) 0 i) None None in
  let W := mkWorld [w_at 100] [Pseudo_ctor1 52 7; Pseudo_ctor1 12 8] in
  moGen (pcModel (P 0%nat)) <> moGen (pcModel (P 1%nat)) /\
  fst (calculatePrice env la (P 1%nat) (snd (calculatePrice env la (P 0%nat) W N)) M) = fst (calculatePrice env la (P 1%nat) W M).
Proof.
  intros env la N M P W. assert (D : moGen (pcModel (P 0%nat)) <> moGen (pcModel (P 1%nat))) by easy. split; [exact D|].
  now apply (C87_no_interference R Rnum env la (P 0%nat) (P 1%nat) W N M D).
Qed.
Example C88_ex : farther (90, Down) (80, Down) /\ farther (110, Up) (120, Up) /\ ~ farther (80, Down) (90, Down).
Proof. unfold farther; cbn. repeat split; try lra. Qed.
