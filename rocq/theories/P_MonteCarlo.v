(** Properties C41-C46: the Monte Carlo pricers of the options without early exercise,
    in exact arithmetic. *)
From Coq Require Import String List ZArith Bool Lia Reals Lra.
From Flocq Require Import Core.
From Verif Require Import M_Num M_Outcome M_Dict M_Stock M_Market M_Payoff M_Option M_Random M_Model
  M_Regression M_MonteCarlo M_Builder S_Option S_Random S_Model S_MonteCarlo L_Option L_Model L_MonteCarlo P_Model.
Import ListNotations.
Local Open Scope R_scope.

(** What the factories make is well formed. *)
Lemma created_wf : forall k ty (p : Params R) w o, call_or_put ty ->
  res (createOption k ty p w) = Ok o -> wf_option o /\ optKind o = k.
Proof.
  intros k ty p w o CP E. apply create_ok in E; [|exact CP].
  destruct E as (Ek & _ & _ & _ & TT & PS & BS & _).
  assert (N : forall x : R, nltb x n0 = false -> 0 <= x).
  { intros x. unfold n0; cbn. destruct (Rlt_bool_spec x 0); [discriminate|lra]. }
  split; [|easy]. unfold wf_option. rewrite Ek. split; [auto|]. split.
  - destruct k; cbn in PS;
      repeat match goal with H : exists _, _ |- _ => destruct H | H : _ /\ _ |- _ => destruct H end; eauto 10.
  - destruct k; cbn in BS;
      repeat match goal with H : exists _, _ |- _ => destruct H | H : _ /\ _ |- _ => destruct H end; eauto.
Qed.

(** ** C41.  The pricer runs the simulation N times in a row on its generator and returns
    the discounted mean of the payoffs; a failing simulation ends the pricing with the
    same failure.  Only the pricer's generator changes. *)
Theorem C41_discounted_mean : forall env la P W w wm g N,
  wf_pricer P -> pcClass P <> CAmerican -> lives_in P W w wm g ->
  (1 <= N <= INT_MAX)%Z -> (1 <= getDim g)%Z ->
  let o := pcOption P in
  let '(simulations, g') := runs (simulatePrices env (moModel (pcModel P)) wm (optT o)) (Z.to_nat N) g in
  moved P W g' (snd (calculatePrice env la P W N)) /\
  fst (calculatePrice env la P W N) =
    match simulations with
    | Ok paths => Ok (exp (- getR w * optT o) * Rmean (map (path_value o) paths))
    | Throw e => Throw e
    | UB => UB
    end.
Proof.
  intros env la P W w wm g N [A WF] NA L LN LD. cbv zeta.
  pose proof (calc_class env la P W w wm g N L NA) as E.
  rewrite (class_price env (pcClass P) (pcOption P) w (moModel (pcModel P)) wm N g A WF NA LN LD) in E.
  destruct (runs _ (Z.to_nat N) g) as [[paths| |] g']; rewrite E; cbn [fst snd];
    (split; [eapply moved_world; eauto|reflexivity]).
Qed.
Print Assumptions C41_discounted_mean.

(** The Asian pricer's counter is an unsigned long: any N. *)
Theorem C41_asian_any_N : forall env k o w m wm N g,
  accepts (CAsian k) (optKind o) = true -> wf_option o -> (1 <= N)%Z -> (1 <= getDim g)%Z ->
  asian_price env k o w m wm N g =
    match runs (simulatePrices env m wm (optT o)) (Z.to_nat N) g with
    | (Ok paths, g1) => (Ok (exp (- getR w * optT o) * Rmean (map (path_value o) paths)), g1)
    | (Throw e, g1) => (Throw e, g1)
    | (UB, g1) => (UB, g1)
    end.
Proof. exact asian_any_N. Qed.
Print Assumptions C41_asian_any_N.

Lemma runs_paths : forall (env : Env R) m wm t n g paths g', (1 <= getDim g)%Z ->
  runs (simulatePrices env m wm t) n g = (Ok paths, g') ->
  forall p, In p paths -> p <> [].
Proof.
  intros env m wm t n g paths g' G E p I.
  destruct (runs_in _ (keeps_simulate env m wm t) _ _ _ _ E p I) as (h & h' & D & _ & S).
  eapply (path_nonempty env); [|exact S]. rewrite D. exact G.
Qed.

Theorem C41_bounds : forall env la P W w wm g N v b,
  wf_pricer P -> pcClass P <> CAmerican -> lives_in P W w wm g ->
  (1 <= N <= INT_MAX)%Z -> (1 <= getDim g)%Z ->
  fst (calculatePrice env la P W N) = Ok v ->
  0 <= v /\
  ((forall path, path <> [] -> path_value (pcOption P) path <= b) ->
   v <= exp (- getR w * optT (pcOption P)) * b).
Proof.
  intros env la P W w wm g N v b WF NA L LN LD E.
  pose proof (C41_discounted_mean env la P W w wm g N WF NA L LN LD) as H. cbv zeta in H.
  destruct (runs _ (Z.to_nat N) g) as [[paths| |] g'] eqn:R; destruct H as [_ H]; rewrite H in E; try discriminate.
  injection E as <-.
  assert (NE : paths <> []) by (intros ->; apply runs_length in R; cbn in R; lia).
  pose proof (runs_paths _ _ _ _ _ _ _ _ LD R) as PN.
  pose proof (exp_pos (- getR w * optT (pcOption P))). split.
  - apply Rmult_le_pos; [lra|]. rewrite <- (Rmean_const 0 paths NE).
    apply Rmean_le; [easy|]. intros p I. apply path_value_nonneg. auto.
  - intros B. apply Rmult_le_compat_l; [lra|]. rewrite <- (Rmean_const b paths NE).
    apply Rmean_le; [easy|]. auto.
Qed.
Print Assumptions C41_bounds.

(** ** C42 *)
Definition same_run (P Q : Pricer R) : Prop :=
  pcMarket P = pcMarket Q /\ pcModel P = pcModel Q /\ optT (pcOption P) = optT (pcOption Q).

Lemma two_prices : forall env la P Q W w wm g N v,
  wf_pricer P -> pcClass P <> CAmerican -> wf_pricer Q -> pcClass Q <> CAmerican -> same_run P Q ->
  lives_in P W w wm g -> (1 <= N <= INT_MAX)%Z -> (1 <= getDim g)%Z ->
  fst (calculatePrice env la P W N) = Ok v ->
  exists paths g', paths <> [] /\ (forall p, In p paths -> p <> []) /\
    runs (simulatePrices env (moModel (pcModel P)) wm (optT (pcOption P))) (Z.to_nat N) g = (Ok paths, g') /\
    v = exp (- getR w * optT (pcOption P)) * Rmean (map (path_value (pcOption P)) paths) /\
    fst (calculatePrice env la Q W N) =
      Ok (exp (- getR w * optT (pcOption P)) * Rmean (map (path_value (pcOption Q)) paths)).
Proof.
  intros env la P Q W w wm g N v WP NP WQ NQ (M1 & M2 & M3) L LN LD E.
  pose proof (C41_discounted_mean env la P W w wm g N WP NP L LN LD) as HP. cbv zeta in HP.
  assert (L' : lives_in Q W w wm g) by (unfold lives_in in *; now rewrite <- M1, <- M2).
  pose proof (C41_discounted_mean env la Q W w wm g N WQ NQ L' LN LD) as HQ. cbv zeta in HQ.
  rewrite <- M2, <- M3 in HQ.
  destruct (runs _ (Z.to_nat N) g) as [[paths| |] g'] eqn:R; destruct HP as [_ HP], HQ as [_ HQ]; rewrite HP in E; try discriminate.
  injection E as <-. exists paths, g'. repeat split; auto.
  - intros ->. apply runs_length in R. cbn in R. lia.
  - eapply runs_paths; eauto.
Qed.

Theorem C42_put_call_parity : forall env la P Q W w wm g N K c,
  wf_pricer P -> wf_pricer Q -> pcClass P = CSinglePath -> pcClass Q = CSinglePath -> same_run P Q ->
  optKind (pcOption P) = European -> optPayoff (pcOption P) = PVanilla Call K ->
  optKind (pcOption Q) = European -> optPayoff (pcOption Q) = PVanilla Put K ->
  lives_in P W w wm g -> (1 <= N <= INT_MAX)%Z -> (1 <= getDim g)%Z ->
  fst (calculatePrice env la P W N) = Ok c ->
  exists p paths g', fst (calculatePrice env la Q W N) = Ok p /\
    runs (simulatePrices env (moModel (pcModel P)) wm (optT (pcOption P))) (Z.to_nat N) g = (Ok paths, g') /\
    c - p = exp (- getR w * optT (pcOption P)) * (Rmean (map (fun path => last path 0) paths) - K).
Proof.
  intros env la P Q W w wm g N K c WP WQ CP CQ SR KP PP KQ PQ L LN LD E.
  destruct (two_prices env la P Q W w wm g N c WP ltac:(congruence) WQ ltac:(congruence) SR L LN LD E)
    as (paths & g' & NE & _ & R & -> & EQ).
  eexists. exists paths, g'. split; [exact EQ|]. split; [exact R|].
  rewrite <- Rmult_minus_distr_l, <- Rmean_minus. f_equal.
  rewrite <- (Rmean_const K paths NE). rewrite <- Rmean_minus. f_equal. apply map_ext. intros path.
  unfold path_value. rewrite KP, KQ, PP, PQ. cbn [terminal vanilla].
  unfold Rmax. destruct (Rle_dec _ 0), (Rle_dec _ 0); lra.
Qed.
Print Assumptions C42_put_call_parity.

(** ** C43 *)
Theorem C43_in_plus_out : forall env la PI PO PV W w wm g N K ty b v,
  wf_pricer PI -> wf_pricer PO -> wf_pricer PV -> same_run PV PI -> same_run PV PO ->
  pcClass PI = CBarrier KIn -> pcClass PO = CBarrier KOut -> pcClass PV = CSinglePath ->
  optPayoff (pcOption PI) = PVanilla ty K -> optPayoff (pcOption PO) = PVanilla ty K ->
  optPayoff (pcOption PV) = PVanilla ty K ->
  optBarrier (pcOption PI) = Some b -> optBarrier (pcOption PO) = Some b ->
  lives_in PV W w wm g -> (1 <= N <= INT_MAX)%Z -> (1 <= getDim g)%Z ->
  fst (calculatePrice env la PV W N) = Ok v ->
  exists i o, fst (calculatePrice env la PI W N) = Ok i /\ fst (calculatePrice env la PO W N) = Ok o /\
    i + o = v /\ 0 <= i <= v /\ 0 <= o <= v.
Proof.
  intros env la PI PO PV W w wm g N K ty b v WI WO WV SI SO CI CO CV YI YO YV BI BO L LN LD E.
  destruct (two_prices env la PV PI W w wm g N v WV ltac:(congruence) WI ltac:(congruence) SI L LN LD E)
    as (paths & g' & NE & PN & R & Ev & EI).
  destruct (two_prices env la PV PO W w wm g N v WV ltac:(congruence) WO ltac:(congruence) SO L LN LD E)
    as (paths' & g'' & _ & _ & R' & _ & EO).
  rewrite R in R'. injection R' as <- <-.
  pose proof (exp_pos (- getR w * optT (pcOption PV))) as X.
  do 2 eexists. split; [exact EI|]. split; [exact EO|].
  assert (KI : optKind (pcOption PI) = KnockIn).
  { destruct WI as [A _]. rewrite CI in A. destruct (optKind (pcOption PI)); easy. }
  assert (KO : optKind (pcOption PO) = KnockOut).
  { destruct WO as [A _]. rewrite CO in A. destruct (optKind (pcOption PO)); easy. }
  assert (KV : optKind (pcOption PV) = European).
  { destruct WV as [A (_ & Y & _)]. rewrite CV in A. rewrite YV in Y. destruct (optKind (pcOption PV)); try easy.
    - destruct Y as (? & ? & _ & _ & ?); discriminate.
    - destruct Y as (? & ? & _ & _ & ?); discriminate. }
  assert (S1 : exp (- getR w * optT (pcOption PV)) * Rmean (map (path_value (pcOption PI)) paths) +
               exp (- getR w * optT (pcOption PV)) * Rmean (map (path_value (pcOption PO)) paths) = v).
  { rewrite Ev, <- Rmult_plus_distr_l, <- Rmean_plus. do 2 f_equal. apply map_ext. intros p.
    unfold path_value. rewrite KI, KO, KV, BI, BO, YI, YO, YV. destruct (touched b p); lra. }
  assert (N1 : forall o, 0 <= exp (- getR w * optT (pcOption PV)) * Rmean (map (path_value o) paths)).
  { intros o. apply Rmult_le_pos; [lra|]. rewrite <- (Rmean_const 0 paths NE).
    apply Rmean_le; [easy|]. intros p I. apply path_value_nonneg. auto. }
  pose proof (N1 (pcOption PI)). pose proof (N1 (pcOption PO)). lra.
Qed.
Print Assumptions C43_in_plus_out.

(** ** C44.  On any path the flag is raised exactly when a price touches the barrier, and a
    price from one simulation is the discounted vanilla payoff or zero accordingly. *)
Theorem C44_flag_exact : forall k o b path, optBarrier o = Some b ->
  optKind o = match k with KIn => KnockIn | KOut => KnockOut end ->
  (Z.of_nat (length path) <= INT_MAX)%Z ->
  exists flag, barrier_crossed k o path (Z.of_nat (length path)) = Ok flag /\
    (flag = true <-> exists x, In x path /\ touches b x).
Proof.
  intros k o b path B K L. exists (touched b path). split; [now apply crossed_ok|]. apply touched_spec.
Qed.
Print Assumptions C44_flag_exact.

Theorem C44_pays_exactly : forall env la P W w wm g k b path g',
  wf_pricer P -> pcClass P = CBarrier k -> optBarrier (pcOption P) = Some b ->
  lives_in P W w wm g -> (1 <= getDim g)%Z ->
  simulatePrices env (moModel (pcModel P)) wm (optT (pcOption P)) g = (Ok path, g') ->
  let paid := exp (- getR w * optT (pcOption P)) * terminal (optPayoff (pcOption P)) (last path 0) in
  ((exists x, In x path /\ touches b x) ->
     fst (calculatePrice env la P W 1) = Ok (match k with KIn => paid | KOut => 0 end)) /\
  (~ (exists x, In x path /\ touches b x) ->
     fst (calculatePrice env la P W 1) = Ok (match k with KIn => 0 | KOut => paid end)).
Proof.
  intros env la P W w wm g k b path g' WF C B L LD E paid.
  pose proof (C41_discounted_mean env la P W w wm g 1 WF ltac:(congruence) L ltac:(unfold INT_MAX; lia) LD) as H.
  cbv zeta in H. change (Z.to_nat 1) with 1%nat in H. cbn [runs] in H. rewrite E in H. destruct H as [_ H].
  rewrite H. unfold Rmean. cbn [map length Rsum fold_right INR].
  assert (KP : optKind (pcOption P) = match k with KIn => KnockIn | KOut => KnockOut end).
  { destruct WF as [A _]. rewrite C in A. destruct k; destruct (optKind (pcOption P)); easy. }
  rewrite <- touched_spec. unfold path_value. rewrite KP, B. subst paid. destruct (touched b path); split; intros T; try easy;
    destruct k; f_equal; field.
Qed.
Print Assumptions C44_pays_exactly.

(** ** C45 *)
Definition Rprod (l : list R) : R := fold_right Rmult 1 l.

Lemma ln_le_minus : forall y, 0 < y -> ln y <= y - 1.
Proof.
  intros y H. pose proof (exp_ineq1_le (ln y)). rewrite exp_ln in H0 by easy. lra.
Qed.

Lemma am_gm : forall path, path <> [] -> Forall (Rlt 0) path -> geometric_mean path <= Rmean path.
Proof.
  intros path NE F. set (a := Rmean path).
  assert (L : 0 < lmin path) by (rewrite Forall_forall in F; apply F, lmin_in, NE).
  assert (A : 0 < a).
  { pose proof (Rmean_bounds path (lmin path) (lmax path) NE
      (fun x I => conj (lmin_le path x I) (lmax_ge path x I))). unfold a. lra. }
  unfold geometric_mean. rewrite <- (exp_ln a A).
  assert (H : Rmean (map ln path) <= ln a).
  { replace (ln a) with (Rmean (map (fun x => ln a + (x / a - 1)) path)).
    - apply Rmean_le; [easy|]. intros x I.
      assert (P : 0 < x) by (rewrite Forall_forall in F; auto).
      assert (P' : 0 < x / a) by (apply Rdiv_lt_0_compat; easy).
      pose proof (ln_le_minus _ P'). unfold Rdiv at 1 in H. rewrite ln_mult, ln_Rinv in H; [lra|easy|easy|].
      now apply Rinv_0_lt_compat.
    - rewrite (Rmean_plus (fun _ => ln a) (fun x => x / a - 1)). rewrite Rmean_const by easy.
      rewrite (Rmean_minus (fun x => x / a) (fun _ => 1)). rewrite Rmean_const by easy.
      enough (Rmean (map (fun x => x / a) path) = 1) by lra.
      transitivity (Rmean path / a); [|fold a; field; lra].
      unfold Rmean. rewrite map_length.
      replace (Rsum (map (fun x => x / a) path)) with (Rsum path / a); [unfold Rdiv; ring|].
      generalize a. intros a0. clear. induction path; cbn; [unfold Rdiv; lra|].
        fold (Rsum path) (Rsum (map (fun x => x / a0) path)). rewrite <- IHpath. unfold Rdiv; ring. }
  destruct H as [H|H]; [left; now apply exp_increasing|right; now rewrite H].
Qed.

(** The geometric average is the n-th root of the product. *)
Theorem C45_averages : forall path, path <> [] -> Forall (Rlt 0) path ->
  geometric_mean path ^ length path = Rprod path /\
  lmin path <= geometric_mean path <= Rmean path /\ Rmean path <= lmax path.
Proof.
  intros path NE F.
  assert (B : forall x, In x path -> lmin path <= x <= lmax path)
    by (intros x I; split; [now apply lmin_le|now apply lmax_ge]).
  assert (L : 0 < lmin path) by (rewrite Forall_forall in F; apply F, lmin_in, NE).
  split; [|split; [split|]].
  - unfold geometric_mean. rewrite <- Rpower_pow by apply exp_pos. unfold Rpower. rewrite ln_exp.
    replace (INR (length path) * Rmean (map ln path)) with (Rsum (map ln path)).
    + clear NE B L. induction F as [|x l P F IH]; cbn; [apply exp_0|]. rewrite exp_plus, exp_ln by easy.
      fold (Rsum (map ln l)). now rewrite IH.
    + unfold Rmean. rewrite map_length. field. apply not_0_INR. destruct path; easy.
  - unfold geometric_mean. rewrite <- (exp_ln (lmin path) L).
    assert (H : ln (lmin path) <= Rmean (map ln path)).
    { rewrite <- (Rmean_const (ln (lmin path)) path NE). apply Rmean_le; [easy|]. intros x I.
      destruct (B x I) as [[H|H] _]; [left; now apply ln_increasing|right; now rewrite H]. }
    destruct H as [H|H]; [left; now apply exp_increasing|right; now rewrite H].
  - now apply am_gm.
  - exact (proj2 (Rmean_bounds path _ _ NE B)).
Qed.
Print Assumptions C45_averages.

Example C45_ex : geometric_mean [100; 121] ^ 2 = 12100 /\ Rmean [100; 121] = 110.5 /\
  lmin [100; 121] = 100 /\ lmax [100; 121] = 121.
Proof.
  split; [|split; [|split]].
  - change 2%nat with (length [100; 121]).
    rewrite (proj1 (C45_averages [100; 121] ltac:(easy) ltac:(repeat constructor; lra))). cbn. lra.
  - unfold Rmean; cbn. lra.
  - cbn. rewrite Rmin_right; lra.
  - cbn. rewrite Rmax_left; lra.
Qed.

Theorem C45_asian_prices : forall env la PG PA W w wm d g N K ty x,
  wf_pricer PG -> wf_pricer PA -> same_run PG PA ->
  pcClass PG = CAsian Geometric -> pcClass PA = CAsian Arithmetic ->
  optPayoff (pcOption PG) = PVanilla ty K -> optPayoff (pcOption PA) = PVanilla ty K ->
  lives_in PG W w wm g -> deref (mdStock (moModel (pcModel PG))) wm = Ok d -> 0 < getPrice d ->
  (1 <= N <= INT_MAX)%Z -> (1 <= getDim g)%Z ->
  fst (calculatePrice env la PG W N) = Ok x ->
  exists y, fst (calculatePrice env la PA W N) = Ok y /\ (ty = Call -> x <= y) /\ (ty = Put -> y <= x).
Proof.
  intros env la PG PA W w wm d g N K ty x WG WA SR CG CA YG YA L D PD LN LD E.
  destruct (two_prices env la PG PA W w wm g N x WG ltac:(congruence) WA ltac:(congruence) SR L LN LD E)
    as (paths & g' & NE & PN & R & -> & EA).
  eexists. split; [exact EA|].
  assert (KG : optKind (pcOption PG) = GeometricAsian).
  { destruct WG as [A _]. rewrite CG in A. destruct (optKind (pcOption PG)); easy. }
  assert (KA : optKind (pcOption PA) = ArithmeticAsian).
  { destruct WA as [A _]. rewrite CA in A. destruct (optKind (pcOption PA)); easy. }
  assert (O : forall p, In p paths -> geometric_mean p <= Rmean p).
  { intros p I. apply am_gm; [auto|].
    destruct (runs_in _ (keeps_simulate env _ wm _) _ _ _ _ R p I) as (h & h' & _ & _ & S).
    eapply simulate_positive; eauto. }
  pose proof (exp_pos (- getR w * optT (pcOption PG))) as X.
  split; intros ->; (apply Rmult_le_compat_l; [lra|]); (apply Rmean_le; [easy|]); intros p I;
    unfold path_value; rewrite KG, KA, YG, YA; cbn [terminal vanilla]; specialize (O p I);
    apply Rle_max_compat_r; lra.
Qed.
Print Assumptions C45_asian_prices.

(** ** C46 *)
Theorem C46_fixed_dominates : forall ty K path, call_or_put ty -> path <> [] ->
  let ext := match ty with Call => lmax path | _ => lmin path end in
  In ext path /\ (forall x, In x path -> match ty with Call => x <= ext | _ => ext <= x end) /\
  vanilla ty K (last path 0) <= vanilla ty K ext /\ vanilla ty K (Rmean path) <= vanilla ty K ext.
Proof.
  intros ty K path CP NE ext.
  assert (B : forall x, In x path -> lmin path <= x <= lmax path)
    by (intros x I; split; [now apply lmin_le|now apply lmax_ge]).
  pose proof (B _ (last_in path 0 NE)). pose proof (Rmean_bounds path _ _ NE B).
  subst ext. destruct CP as [-> | ->]; cbn [vanilla].
  - split; [now apply lmax_in|]. split; [intros x I; apply B, I|].
    split; apply Rle_max_compat_r; lra.
  - split; [now apply lmin_in|]. split; [intros x I; apply B, I|].
    split; apply Rle_max_compat_r; lra.
Qed.
Print Assumptions C46_fixed_dominates.

Theorem C46_prices : forall env la PL PV W w wm g N K ty x,
  wf_pricer PL -> wf_pricer PV -> same_run PL PV -> pcClass PL = CLookback Fixed ->
  pcClass PV = CSinglePath \/ pcClass PV = CAsian Arithmetic ->
  optPayoff (pcOption PL) = PVanilla ty K -> optPayoff (pcOption PV) = PVanilla ty K ->
  lives_in PL W w wm g -> (1 <= N <= INT_MAX)%Z -> (1 <= getDim g)%Z ->
  fst (calculatePrice env la PL W N) = Ok x ->
  exists y, fst (calculatePrice env la PV W N) = Ok y /\ y <= x.
Proof.
  intros env la PL PV W w wm g N K ty x WL WV SR CL CV YL YV L LN LD E.
  destruct (two_prices env la PL PV W w wm g N x WL ltac:(congruence) WV ltac:(destruct CV; congruence) SR L LN LD E)
    as (paths & g' & NE & PN & R & -> & EV).
  eexists. split; [exact EV|].
  assert (KL : optKind (pcOption PL) = FixedLookback).
  { destruct WL as [A _]. rewrite CL in A. destruct (optKind (pcOption PL)); easy. }
  assert (CP : call_or_put ty).
  { destruct WL as [_ (_ & A & _)]. rewrite KL, YL in A. destruct A as (ty' & K' & C & _ & Eq). now injection Eq as -> _. }
  pose proof (exp_pos (- getR w * optT (pcOption PL))) as X.
  apply Rmult_le_compat_l; [lra|]. apply Rmean_le; [easy|]. intros p I.
  pose proof (C46_fixed_dominates ty K p CP (PN p I)) as (_ & _ & D1 & D2).
  unfold path_value. rewrite KL, YL, YV. cbn [getPayoffType terminal].
  assert (Y : forall k, optKind (pcOption PV) = k ->
     accepts (pcClass PV) k = true) by (intros k <-; apply WV).
  destruct CV as [CV|CV]; rewrite CV in Y; destruct (optKind (pcOption PV)); try (specialize (Y _ eq_refl); discriminate);
    destruct CP as [-> | ->]; assumption.
Qed.
Print Assumptions C46_prices.

Theorem C46_floating : forall env la P W w wm g ty path g',
  wf_pricer P -> pcClass P = CLookback Floating -> optPayoff (pcOption P) = PFloating ty ->
  lives_in P W w wm g -> (1 <= getDim g)%Z ->
  simulatePrices env (moModel (pcModel P)) wm (optT (pcOption P)) g = (Ok path, g') ->
  exists ext, In ext path /\ (forall x, In x path -> match ty with Call => ext <= x | _ => x <= ext end) /\
    fst (calculatePrice env la P W 1) = Ok (exp (- getR w * optT (pcOption P)) * Rabs (last path 0 - ext)).
Proof.
  intros env la P W w wm g ty path g' WF C Y L LD E.
  assert (NE : path <> []) by (eapply (path_nonempty env); eauto).
  assert (B : forall x, In x path -> lmin path <= x <= lmax path)
    by (intros x I; split; [now apply lmin_le|now apply lmax_ge]).
  pose proof (C41_discounted_mean env la P W w wm g 1 WF ltac:(congruence) L ltac:(unfold INT_MAX; lia) LD) as H.
  cbv zeta in H. change (Z.to_nat 1) with 1%nat in H. cbn [runs] in H. rewrite E in H. destruct H as [_ H].
  assert (KP : optKind (pcOption P) = FloatingLookback).
  { destruct WF as [A _]. rewrite C in A. destruct (optKind (pcOption P)); easy. }
  assert (CP : call_or_put ty).
  { destruct WF as [_ (_ & A & _)]. rewrite KP, Y in A. destruct A as (ty' & C' & Eq). now injection Eq as ->. }
  exists (match ty with Call => lmin path | _ => lmax path end). rewrite H.
  unfold Rmean. cbn [map length Rsum fold_right INR]. unfold path_value. rewrite KP, Y. cbn [getPayoffType].
  pose proof (B _ (last_in path 0 NE)).
  destruct CP as [-> | ->]; (split; [now (apply lmin_in || apply lmax_in)|]); (split; [intros x I; apply B, I|]); f_equal.
  - rewrite Rabs_pos_eq by lra. field.
  - rewrite Rabs_left1 by lra. field.
Qed.
Print Assumptions C46_floating.

(** The hypotheses of C41-C46 are met: options made by the factories, a pricer built by
    the builder with its default model (GBM on 52 steps). *)
Definition R_params : Params R :=
  set_all [("ticker", VString "AAPL"); ("K", VDouble 100); ("T", VDouble 1);
           ("B", VDouble 90); ("direction", VDir Down)]%string.
Definition R_option (k : OptionKind) (ty : PayoffType) : Option R :=
  mkOption k "AAPL" 1
    (match k with Digital => PDigital ty 100 | FloatingLookback => PFloating ty | _ => PVanilla ty 100 end)
    (if isBarrierKind k then Some (90, Down) else None) 0.
Definition R_world : World R := mkWorld [w_ex] [Pseudo_ctor1 52 7].
Definition R_pricer (c : PricerClass) (k : OptionKind) (ty : PayoffType) : Pricer R :=
  mkPricer c (R_option k ty) (Some 0%nat) (mkModelObj (mkModel "AAPL" 0 MGBM) 0 0) None None.

Lemma R_option_created : forall k ty, call_or_put ty -> k <> DoubleDigitalK ->
  res (createOption k ty R_params w_ex) = Ok (R_option k ty).
Proof.
  intros k ty CP N.
  assert (N100 : nltb (100 : R) n0 = false) by (unfold n0; cbn; apply Rlt_bool_false; lra).
  assert (N1 : nltb (1 : R) n0 = false) by (unfold n0; cbn; apply Rlt_bool_false; lra).
  assert (C : isCallPut ty = true) by (destruct CP as [-> | ->]; reflexivity).
  unfold createOption, createSpecificPayoff, createSpecificOption, Option_ctor_checks.
  unfold PayoffVanilla_ctor, PayoffDigital_ctor, PayoffFloating_ctor.
  destruct k; try easy; cbn -[nltb n0]; rewrite ?N100, ?C; cbn -[nltb n0]; rewrite ?N1; reflexivity.
Qed.

Lemma R_pricer_wf : forall c k ty, call_or_put ty -> k <> DoubleDigitalK -> accepts c k = true ->
  wf_pricer (R_pricer c k ty).
Proof.
  intros c k ty CP N A. split; [exact A|].
  eapply (created_wf k ty R_params w_ex); [easy|]. now apply R_option_created.
Qed.
Lemma R_pricer_lives : forall c k ty, lives_in (R_pricer c k ty) R_world w_ex w_ex (Pseudo_ctor1 52 7).
Proof. repeat split. Qed.
Lemma R_pricer_price : forall la c k ty N env, call_or_put ty -> k <> DoubleDigitalK -> accepts c k = true ->
  c <> CAmerican -> (1 <= N <= INT_MAX)%Z ->
  exists v, fst (calculatePrice env la (R_pricer c k ty) R_world N) = Ok v.
Proof.
  intros la c k ty N env CP NK A NA LN.
  pose proof (C41_discounted_mean env la _ R_world w_ex w_ex _ N (R_pricer_wf c k ty CP NK A) NA
    (R_pricer_lives c k ty) LN ltac:(cbn; lia)) as H. cbv zeta in H.
  assert (E : exists paths g', runs (simulatePrices env (moModel (pcModel (R_pricer c k ty))) w_ex
      (optT (pcOption (R_pricer c k ty)))) (Z.to_nat N) (Pseudo_ctor1 52 7) = (Ok paths, g')).
  { cbn [pcModel moModel pcOption optT R_pricer R_option].
    assert (Q : gQuasi (@Pseudo_ctor1 R 52 7) = None /\ gDim (@Pseudo_ctor1 R 52 7) = 52%Z) by easy.
    revert Q. generalize (@Pseudo_ctor1 R 52 7). clear H. induction (Z.to_nat N) as [|n IH]; intros g [Q D].
    - now exists [], g.
    - cbn [runs].
      pose proof (simulate_outcome env (mkModel "AAPL" 0 MGBM) w_ex (mkStock 100 (2/10) None) 1 g eq_refl Q
        ltac:(unfold INT_MAX; lia)) as O.
      cbn [mdKind kind_dists forallb dist_ok] in O. unfold n0, n1 in O. cbn [nleb nofZ Rnum] in O.
      rewrite Rle_bool_false in O by lra. cbn [negb andb] in O. destruct O as (p & g1 & O).
      pose proof (keeps_simulate env (mkModel "AAPL" 0 MGBM) w_ex 1 g) as [K1 K2]. rewrite O in *. cbn [snd] in *.
      destruct (IH g1) as (l & g2 & E2); [split; congruence|]. rewrite E2. eauto. }
  destruct E as (paths & g' & E). rewrite E in H. destruct H as [_ H]. eauto.
Qed.

Example C42_ex : forall env la N, (1 <= N <= INT_MAX)%Z -> exists c p paths,
  fst (calculatePrice env la (R_pricer CSinglePath European Call) R_world N) = Ok c /\
  fst (calculatePrice env la (R_pricer CSinglePath European Put) R_world N) = Ok p /\
  c - p = exp (- (5 / 100) * 1) * (Rmean (map (fun path => last path 0) paths) - 100).
Proof.
  intros env la N LN.
  destruct (R_pricer_price la CSinglePath European Call N env ltac:(now left) ltac:(easy) eq_refl ltac:(easy) LN) as [c E].
  destruct (C42_put_call_parity env la (R_pricer CSinglePath European Call) (R_pricer CSinglePath European Put)
    R_world w_ex w_ex (Pseudo_ctor1 52 7) N 100 c) as (p & paths & g' & E1 & _ & E2); try easy.
  - apply R_pricer_wf; try easy. now left.
  - apply R_pricer_wf; try easy. now right.
  - exists c, p, paths. repeat split; easy.
Qed.
Example C43_ex : forall env la N, (1 <= N <= INT_MAX)%Z -> exists v i o,
  fst (calculatePrice env la (R_pricer CSinglePath European Put) R_world N) = Ok v /\
  fst (calculatePrice env la (R_pricer (CBarrier KIn) KnockIn Put) R_world N) = Ok i /\
  fst (calculatePrice env la (R_pricer (CBarrier KOut) KnockOut Put) R_world N) = Ok o /\
  i + o = v.
Proof.
  intros env la N LN.
  destruct (R_pricer_price la CSinglePath European Put N env ltac:(now right) ltac:(easy) eq_refl ltac:(easy) LN) as [v E].
  destruct (C43_in_plus_out env la (R_pricer (CBarrier KIn) KnockIn Put) (R_pricer (CBarrier KOut) KnockOut Put)
    (R_pricer CSinglePath European Put) R_world w_ex w_ex (Pseudo_ctor1 52 7) N 100 Put (90, Down) v)
    as (i & o & E1 & E2 & E3 & _); try easy; try (apply R_pricer_wf; try easy; now right).
  exists v, i, o. repeat split; easy.
Qed.
Example C44_ex : touches (90, Down) 85 /\ ~ touches (90, Down) 95 /\
  touched (90, Down) [95; 85; 120] = true /\ touched (90, Down) [95; 120] = false.
Proof.
  cbn. repeat split; try lra.
  - destruct (Rle_dec 95 90), (Rle_dec 85 90); cbn; try easy; lra.
  - destruct (Rle_dec 95 90), (Rle_dec 120 90); cbn; try easy; lra.
Qed.
Example C45_prices_ex : forall env la N, (1 <= N <= INT_MAX)%Z -> exists x y,
  fst (calculatePrice env la (R_pricer (CAsian Geometric) GeometricAsian Call) R_world N) = Ok x /\
  fst (calculatePrice env la (R_pricer (CAsian Arithmetic) ArithmeticAsian Call) R_world N) = Ok y /\ x <= y.
Proof.
  intros env la N LN.
  destruct (R_pricer_price la (CAsian Geometric) GeometricAsian Call N env ltac:(now left) ltac:(easy) eq_refl ltac:(easy) LN) as [x E].
  destruct (C45_asian_prices env la (R_pricer (CAsian Geometric) GeometricAsian Call)
    (R_pricer (CAsian Arithmetic) ArithmeticAsian Call) R_world w_ex w_ex (mkStock 100 (2/10) None)
    (Pseudo_ctor1 52 7) N 100 Call x) as (y & E1 & E2 & _); try easy; try (apply R_pricer_wf; try easy; now left).
  - cbn. lra.
  - exists x, y. auto.
Qed.
Example C46_ex : forall env la N, (1 <= N <= INT_MAX)%Z -> exists x y,
  fst (calculatePrice env la (R_pricer (CLookback Fixed) FixedLookback Put) R_world N) = Ok x /\
  fst (calculatePrice env la (R_pricer (CAsian Arithmetic) ArithmeticAsian Put) R_world N) = Ok y /\ y <= x.
Proof.
  intros env la N LN.
  destruct (R_pricer_price la (CLookback Fixed) FixedLookback Put N env ltac:(now right) ltac:(easy) eq_refl ltac:(easy) LN) as [x E].
  destruct (C46_prices env la (R_pricer (CLookback Fixed) FixedLookback Put)
    (R_pricer (CAsian Arithmetic) ArithmeticAsian Put) R_world w_ex w_ex (Pseudo_ctor1 52 7) N 100 Put x)
    as (y & E1 & E2); try easy; try (apply R_pricer_wf; try easy; now right).
  - now right.
  - exists x, y. auto.
Qed.
Example C41_ex : forall env la N, (1 <= N <= INT_MAX)%Z -> exists v paths,
  fst (calculatePrice env la (R_pricer CSinglePath Digital Put) R_world N) = Ok v /\ length paths = Z.to_nat N /\
  v = exp (- getR w_ex * 1) * Rmean (map (fun path => if Rlt_dec (last path 0) 100 then 1 else 0) paths) /\
  0 <= v <= exp (- getR w_ex * 1) * 1.
Proof.
  intros env la N LN. set (P := R_pricer CSinglePath Digital Put).
  assert (WF : wf_pricer P) by (apply R_pricer_wf; try easy; now right).
  destruct (R_pricer_price la CSinglePath Digital Put N env ltac:(now right) ltac:(easy) eq_refl ltac:(easy) LN) as [v E].
  pose proof (C41_discounted_mean env la P R_world w_ex w_ex _ N WF ltac:(easy) (R_pricer_lives _ _ _) LN ltac:(cbn; lia)) as H.
  pose proof (C41_bounds env la P R_world w_ex w_ex _ N v 1 WF ltac:(easy) (R_pricer_lives _ _ _) LN ltac:(cbn; lia) E) as [B0 B1].
  cbv zeta in H. destruct (runs _ (Z.to_nat N) _) as [[paths| |] g'] eqn:R; destruct H as [_ H]; fold P in E; rewrite H in E; try discriminate.
  assert (E1 := E). injection E1 as E1. exists v, paths. split; [rewrite H; exact E|]. repeat split.
  - exact (runs_length _ _ _ _ _ R).
  - symmetry. exact E1.
  - exact B0.
  - apply B1. intros path _. cbn. destruct (Rlt_dec (last path 0) 100); lra.
Qed.
