(** Property C109: the program. *)
From Coq Require Import String List ZArith Bool Lia.
From Flocq Require Import Core BinarySingleNaN.
From Verif Require Import M_Num M_Outcome M_Dict M_Stock M_Market M_Payoff M_Option M_Random M_Model
  M_Regression M_MonteCarlo M_Builder M_Main S_Double S_Pseudo S_Quasi S_MonteCarlo S_McPaths S_Option S_Random S_Order S_Main
  L_Option L_Random L_RandomModel L_MonteCarlo L_McPaths L_Quasi L_Pseudo P_Quasi P_Pseudo P_McRelations P_McDouble.
Import ListNotations.

(** The checks on the constants of main. *)
Definition main_checks {T} {num : Num T} : bool :=
  negb (nleb main_S n0) && negb (nltb main_sigma n0) && negb (nltb main_K n0) && negb (nltb main_T n0)
  && negb (nltb main_rho (nopp n1)) && negb (nltb n1 main_rho) && negb (nltb main_v0 n0) && negb (nltb main_sigma_v n0)
  && negb (nleb main_v0 n0) && negb (nleb main_kappa n0) && negb (nleb main_sigma_v n0) && negb (nleb main_sigmaJ n0)
  && negb (nltb main_p n0) && negb (nltb n1 main_p) && negb (nltb main_eta1 n1) && negb (nltb main_eta2 n0)
  && negb (nleb main_nu n0).

Lemma main_checked : forall fexp flog, @main_checks b64 (B64 fexp flog) = true.
Proof. intros. vm_compute. reflexivity. Qed.

Definition call_on {T} {num : Num T} : Option T := mkOption ArithmeticAsian "AAPL" main_T (PVanilla Call main_K) None 3.
Definition asian_pricer {T} {num : Num T} (g : nat) : Pricer T :=
  mkPricer (CAsian Arithmetic) call_on (Some 0%nat) (mkModelObj (mkModel "AAPL" 0 MGBM) 0 g) None None.

Ltac lz := lazy -[nltb nleb neqb nadd nmul nsub ndiv nexp nlog nsqrt nofZ n0 n1 nhalf lit nopp main_S main_K main_sigma main_r
  main_T main_dim main_N main_kappa main_theta main_sigma_v main_rho main_v0 main_lambda main_muJ main_sigmaJ main_eta1 main_eta2
  main_p main_thetaGamma main_nu Quasi_ctor1 Pseudo_ctor1].
Definition with_observers {T} {num : Num T} weak objs : Market T :=
  mkMarket main_r [("AAPL"%string, 0%nat)] weak [mkStock main_S main_sigma None] objs.

Lemma main_setup_ok : forall T (num : Num T) env rd1 rd2, main_checks = true ->
  exists weak objs, @main_setup T num env rd1 rd2 =
    Ok (mkWorld [with_observers weak objs]
          [Quasi_ctor1 env Sobol main_dim rd1; Pseudo_ctor1 main_dim rd2], asian_pricer 1, asian_pricer 0).
Proof.
  intros T num env rd1 rd2 H. unfold main_checks in H. rewrite !andb_true_iff, !negb_true_iff in H.
  destruct H as ((((((((((((((((F1 & F2) & F3) & F4) & F5) & F6) & F7) & F8) & F9) & F10) & F11) & F12) & F13) & F14) & F15) & F16) & F17).
  do 2 eexists. lz.
  repeat (first [rewrite F1|rewrite F2|rewrite F3|rewrite F4|rewrite F5|rewrite F6|rewrite F7|rewrite F8|rewrite F9|rewrite F10
    |rewrite F11|rewrite F12|rewrite F13|rewrite F14|rewrite F15|rewrite F16|rewrite F17]; lz).
  reflexivity.
Qed.

Lemma call_made : forall T (num : Num T), main_checks = true -> made (@call_on T num).
Proof.
  intros T num H. unfold main_checks in H. rewrite !andb_true_iff, !negb_true_iff in H.
  exists ArithmeticAsian, [("ticker"%string, VString "AAPL"); ("T"%string, VDouble main_T); ("K"%string, VDouble main_K)],
    (mkMarket main_r [("AAPL"%string, 0%nat)] [] [mkStock main_S main_sigma None] (mObj (newObserver "" true (newObserver "" true (newObserver "" true MarketData_ctor))))).
  left. apply create_ok; [now left|].
  unfold describes. cbn [call_on optKind optTicker optT optPayoff optBarrier optObj].
  split; [reflexivity|]. split; [reflexivity|]. split; [now exists 0%nat|]. split; [reflexivity|]. split; [tauto|].
  cbn [payoff_spec barrier_spec]. split; [|split; reflexivity]. exists main_K. split; [reflexivity|]. split; [tauto|reflexivity].
Qed.

Lemma runs_sim : forall T A (sim : SM T A), respects sim -> forall n g h, gsim g h -> fst (runs sim n g) = fst (runs sim n h).
Proof.
  intros T A sim R. induction n as [|n IH]; intros g h G; cbn [runs]; [reflexivity|].
  destruct (R g h G) as [E G']. destruct (sim g) as [r g1], (sim h) as [r' h1]. cbn [fst snd] in *. subst r'.
  destruct r; try reflexivity. specialize (IH g1 h1 G').
  destruct (runs sim n g1) as [[]], (runs sim n h1) as [[]]; cbn [fst] in *; congruence.
Qed.

Section Price.
Context {T : Type} {num : Num T} (env : Env T) (la : LinAlg T).

Lemma estimate_seed : forall dim s1 s2 v, asian_estimate env (Pseudo_ctor1 dim s1) v -> asian_estimate env (Pseudo_ctor1 dim s2) v.
Proof.
  intros dim s1 s2 v (paths & g' & R & V). unfold asian_estimate.
  pose proof (runs_sim _ _ _ (respects_simulate env (mkModel "AAPL" 0 MGBM) apple n1) (Z.to_nat 100000) _ _ (gsim_ctor dim s1 s2)) as E.
  unfold Pseudo_ctor1 in *. rewrite R in E. destruct (runs _ _ (Pseudo_ctor dim s2)) as [r g2]. cbn [fst] in E. subst r. eauto.
Qed.
Lemma estimate_unique : forall g v v', asian_estimate env g v -> asian_estimate env g v' -> v = v'.
Proof. intros g v v' (p & g1 & R & ->) (p' & g1' & R' & ->). rewrite R in R'. now injection R' as <- _. Qed.

Lemma price_estimate : forall weak objs gens i g v, nth_error gens i = Some g -> (1 <= gDim g)%Z ->
  fst (calculatePrice env la (asian_pricer i)
    (mkWorld [with_observers weak objs] gens) main_N) = Ok v ->
  asian_estimate env g v.
Proof.
  intros weak objs gens i g v G D E.
  destruct (price_paths env la (asian_pricer i) (mkWorld [with_observers weak objs] gens) (with_observers weak objs) (with_observers weak objs) g main_N v (conj eq_refl (conj eq_refl G)) ltac:(discriminate) eq_refl ltac:(discriminate) D E)
    as (paths & xs & g' & R & O & ->).
  exists paths, g'. split; [exact R|]. f_equal. clear - O.
  revert xs O. induction paths as [|p ps IH]; intros xs O; [now injection O as <-|].
  cbn [omap] in O. destruct (path_payoff _ _ p) as [x| |] eqn:X; cbn [bind] in O; try discriminate.
  destruct (omap _ ps) as [ys| |]; cbn [bind] in O; try discriminate. injection O as <-. cbn [map]. f_equal; [|now apply IH].
  injection X as <-. reflexivity.
Qed.
End Price.

Theorem C109_main : forall fexp flog env la, (forall x, nonneg (fexp x)) ->
  exists v1, nonneg v1 /\ forall rdSobol rdPseudo,
    let out := @main_program b64 (B64 fexp flog) env la rdSobol rdPseudo in
    let used i := (Z.of_nat i < 100000 * 1000)%Z in
    let x i := scaled (num := B64 fexp flog) env Sobol rdSobol 1000 i in
    asian_estimate (num := B64 fexp flog) env (Pseudo_ctor1 1000 rdPseudo) v1 /\
    ((forall i, used i -> inside (x i)) ->
       exists v2, nonneg v2 /\ asian_estimate (num := B64 fexp flog) env (Quasi_ctor env Sobol 1000 rdSobol) v2 /\ out = ([v1; v2], Ok tt)) /\
    ((exists i, used i /\ ~ inside (x i)) -> out = ([v1], Throw InvalidArgument)).
Proof.
  intros fexp flog env la NN.
  pose proof (main_checked fexp flog) as CK. pose proof (@call_made b64 (B64 fexp flog) CK) as MO.
  pose (calc P W := @calculatePrice b64 (B64 fexp flog) env la P W main_N).
  pose (W weak objs rd1 rd2 := @mkWorld b64 [@with_observers b64 (B64 fexp flog) weak objs] [Quasi_ctor1 env Sobol main_dim rd1; Pseudo_ctor1 main_dim rd2]).
  assert (FIRST : forall weak objs rd1 rd2, exists v, fst (calc (@asian_pricer b64 (B64 fexp flog) 1) (W weak objs rd1 rd2)) = Ok v /\ nonneg v /\
     asian_estimate (num := B64 fexp flog) env (Pseudo_ctor1 1000 rd2) v).
  { intros weak objs rd1 rd2.
    destruct (C108_exact_partial b64 (B64 fexp flog) env la (@asian_pricer b64 (B64 fexp flog) 1) (W weak objs rd1 rd2) (@with_observers b64 (B64 fexp flog) weak objs) (@with_observers b64 (B64 fexp flog) weak objs) (Pseudo_ctor1 main_dim rd2) main_N
      (mkStock (@main_S b64 (B64 fexp flog)) (@main_sigma b64 (B64 fexp flog)) None) (one_not_zero fexp flog)
      (conj eq_refl (conj eq_refl eq_refl)) ltac:(discriminate) eq_refl MO eq_refl eq_refl ltac:(unfold main_dim, INT_MAX; cbn [gDim Pseudo_ctor1 Pseudo_ctor]; lia) ltac:(unfold main_N, INT_MAX; lia)) as [[_ X] _].
    destruct (X eq_refl) as [v V]. exists v. split; [exact V|]. split.
    - exact (C100_never_negative fexp flog env la _ _ main_N _ NN ltac:(unfold main_N; lia) V).
    - exact (price_estimate (num := B64 fexp flog) env la weak objs (wGens (W weak objs rd1 rd2)) 1 _ v eq_refl ltac:(change (1 <= 1000)%Z; lia) V). }
  destruct (FIRST [] [] 0%Z 0%Z) as (v1 & _ & N1 & E1). exists v1. split; [exact N1|].
  intros rd1 rd2 out used x.
  destruct (main_setup_ok b64 (B64 fexp flog) env rd1 rd2 CK) as (weak & objs & S). fold (W weak objs rd1 rd2) in S.
  destruct (FIRST weak objs rd1 rd2) as (v & V & NV & EV).
  assert (EQ : v = v1).
  { apply (estimate_unique (num := B64 fexp flog) env (Pseudo_ctor1 1000 0)); [|exact E1]. now apply estimate_seed with (s1 := rd2). }
  subst v. split; [exact EV|].
  pose proof (C87_no_interference b64 (B64 fexp flog) env la (@asian_pricer b64 (B64 fexp flog) 1) (@asian_pricer b64 (B64 fexp flog) 0) (W weak objs rd1 rd2) main_N main_N ltac:(discriminate)) as [NI _].
  fold (calc (@asian_pricer b64 (B64 fexp flog) 1) (W weak objs rd1 rd2)) in NI.
  assert (OUT : out = match fst (calc (@asian_pricer b64 (B64 fexp flog) 0) (W weak objs rd1 rd2)) with
                      | Ok v2 => ([v1; v2], Ok tt) | Throw e => ([v1], Throw e) | UB => ([v1], UB) end).
  { unfold out, main_program. rewrite S. cbv zeta. unfold solver_solve. cbn [setPricer setN sPricer sN MCSolver_default MCSolver_new].
    fold (calc (@asian_pricer b64 (B64 fexp flog) 1) (W weak objs rd1 rd2)).
    destruct (calc (@asian_pricer b64 (B64 fexp flog) 1) (W weak objs rd1 rd2)) as [r W1]. cbn [fst snd] in V, NI. subst r.
    unfold calc at 1. rewrite <- NI. destruct (calculatePrice _ _ _ W1 main_N) as [[]]; reflexivity. }
  destruct (C106_quasi_run fexp flog env la (@asian_pricer b64 (B64 fexp flog) 0) (W weak objs rd1 rd2) (@with_observers b64 (B64 fexp flog) weak objs) (@with_observers b64 (B64 fexp flog) weak objs) Sobol main_dim rd1 main_N 1
      (mkStock (@main_S b64 (B64 fexp flog)) (@main_sigma b64 (B64 fexp flog)) None)
      (conj eq_refl (conj eq_refl eq_refl)) ltac:(discriminate) eq_refl MO eq_refl eq_refl ltac:(unfold main_dim, INT_MAX; lia) ltac:(unfold main_N, INT_MAX; lia)) as [[_ Q1] [_ Q2]].
  fold (calc (@asian_pricer b64 (B64 fexp flog) 0) (W weak objs rd1 rd2)) in Q1, Q2.
  split; intros H.
  - destruct Q1 as [v2 V2]. { intros i I. apply H. unfold used. unfold main_N, main_dim in I. lia. }
    exists v2. split; [|split].
    + exact (C100_never_negative fexp flog env la _ _ main_N _ NN ltac:(unfold main_N; lia) V2).
    + exact (price_estimate (num := B64 fexp flog) env la weak objs (wGens (W weak objs rd1 rd2)) 0 _ v2 eq_refl ltac:(change (1 <= 1000)%Z; lia) V2).
    + rewrite OUT, V2. reflexivity.
  - destruct H as (i & I & NI'). rewrite OUT, Q2; [reflexivity|]. exists i. split; [unfold used in I; unfold main_N, main_dim; lia|exact NI'].
Qed.
Print Assumptions C109_main.

(** With every coordinate 1/2 both prices are printed; with every coordinate 0 the program
    ends by an exception after the first. *)
Example C109_ex : forall la rdSobol rdPseudo,
  (exists v1 v2, @main_program b64 (B64 dexp dexp) (j_env (b64_ofZ 1)) la rdSobol rdPseudo = ([v1; v2], Ok tt)) /\
  (exists v1, @main_program b64 (B64 dexp dexp) (j_env (b64_ofZ 0)) la rdSobol rdPseudo = ([v1], Throw InvalidArgument)).
Proof.
  intros la rd1 rd2. split.
  - destruct (C109_main dexp dexp (j_env (b64_ofZ 1)) la dexp_nonneg) as (v1 & _ & H). destruct (H rd1 rd2) as (_ & A & _).
    destruct A as (v2 & _ & _ & E); [|eauto]. intros i _. apply inside_true. vm_compute. reflexivity.
  - destruct (C109_main dexp dexp (j_env (b64_ofZ 0)) la dexp_nonneg) as (v1 & _ & H). destruct (H rd1 rd2) as (_ & _ & A).
    exists v1. apply A. exists 0%nat. split; [lia|]. apply outside_true. vm_compute. reflexivity.
Qed.
