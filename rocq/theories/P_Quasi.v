(** Properties C106-C107: Monte Carlo runs on quasi-random points. *)
From Coq Require Import String List ZArith Bool Lia Reals Lra.
From Flocq Require Import Core BinarySingleNaN.
From Verif Require Import M_Num M_Outcome M_Dict M_Stock M_Market M_Payoff M_Option M_Random M_Model
  M_Regression M_MonteCarlo M_Builder S_Double S_Random S_Quasi S_MonteCarlo S_McPaths S_Option
  L_B64 L_Option L_Model L_Random L_MonteCarlo L_McPaths L_Quasi P_Random.
Import ListNotations.

(** ** C106.  A run ends with a price exactly when all the coordinates it reads can be
    inverted. *)
Lemma one_not_zero : forall fexp flog, @nleb b64 (B64 fexp flog) n1 n0 = false.
Proof. intros. vm_compute. reflexivity. Qed.

Lemma fits_inside : forall fexp flog env k seed dim i,
  @fits b64 (B64 fexp flog) env k seed dim i <-> inside (scaled (num := B64 fexp flog) env k seed dim i).
Proof.
  intros. destruct (C28_domain fexp flog (scaled (num := B64 fexp flog) env k seed dim i)) as [_ D].
  unfold fits. fold (scaled (num := B64 fexp flog) env k seed dim i). unfold inside. split.
  - intros [x X]. rewrite X in D. intros NN. destruct (proj1 D eq_refl) as [C|C]; [now destruct C|exact C].
  - intros C. assert (X : isOk (@snd_inv_cdf b64 (B64 fexp flog) (scaled (num := B64 fexp flog) env k seed dim i)) = true).
    { apply D. unfold notnan in *. destruct (is_nan _); [left; discriminate|right; now apply C]. }
    destruct (@snd_inv_cdf b64 (B64 fexp flog) _) as [x|e|]; [now exists x|discriminate|discriminate].
Qed.

(** Options made by a factory can be priced on every path. *)
Lemma made_pays : forall T (num : Num T) (o : Option T) c, made o -> accepts c (optKind o) = true -> c <> CAmerican ->
  (forall k, c = CBarrier k -> exists b, optBarrier o = Some b) /\ (forall p, exists x, path_payoff c o p = Ok x).
Proof.
  intros T num o c (kind & params & w & M) A NA.
  assert (D : exists ty, describes kind ty params w o).
  { destruct M as [M|M]; [exists Call|exists Put]; apply create_ok; auto. }
  destruct D as (ty & <- & _ & _ & _ & _ & HP & HB & _).
  destruct c as [|c|c|c|]; [| | | |easy]; (split; [|]).
  all: try (intros k' E; injection E as <-; destruct c, (optKind o); try discriminate; destruct HB as (B & d & _ & _ & ->); eauto).
  all: try (intros; discriminate).
  all: intros p; cbn [path_payoff]; unfold option_payoff1, option_payoff2.
  - destruct (optKind o); try discriminate; cbn [payoff_spec] in HP;
      [destruct HP as (K & _ & _ & ->)|destruct HP as (K & _ & _ & ->)|destruct HP as (K1 & K2 & _ & _ & _ & _ & ->)]; cbn [payoff1]; eauto.
  - destruct c, (optKind o); try discriminate; cbn [payoff_spec] in HP; destruct HP as (K & _ & _ & ->); cbn [payoff1]; eauto.
  - destruct c, (optKind o); try discriminate; cbn [payoff_spec] in HP; destruct HP as (K & _ & _ & ->); destruct HB as (B & d & _ & _ & ->);
      cbn [payoff1]; destruct (existsb _ p); eauto.
  - destruct c, (optKind o); try discriminate; cbn [payoff_spec] in HP.
    + rewrite HP. cbn [payoff2]. eauto.
    + destruct HP as (K & _ & _ & ->). cbn [payoff1]. eauto.
Qed.

Theorem C106_quasi_run : forall fexp flog env la (P : Pricer b64) W w wm k dim seed N q d,
  lives_in P W w wm (Quasi_ctor env k dim seed) -> pcClass P <> CAmerican ->
  accepts (pcClass P) (optKind (pcOption P)) = true -> @made b64 (B64 fexp flog) (pcOption P) ->
  normals_per_date (mdKind (moModel (pcModel P))) = Some q -> deref (mdStock (moModel (pcModel P))) wm = Ok d ->
  (1 <= dim <= INT_MAX)%Z -> (1 <= N <= INT_MAX)%Z ->
  let price := fst (@calculatePrice b64 (B64 fexp flog) env la P W N) in
  let used i := (Z.of_nat i < N * q * dim)%Z in
  let x i := scaled (num := B64 fexp flog) env k seed dim i in
  ((exists v, price = Ok v) <-> forall i, used i -> inside (x i)) /\
  (price = Throw InvalidArgument <-> exists i, used i /\ ~ inside (x i)).
Proof.
  intros fexp flog env la P W w wm k dim seed N q d L NA A MO DQ D DIM LN price used x.
  destruct (made_pays _ _ _ _ MO A NA) as [HB HP].
  assert (DQ' : draws_per_step (mdKind (moModel (pcModel P))) = Some (Z.to_nat q) /\ (1 <= q)%Z).
  { destruct (mdKind (moModel (pcModel P))); try discriminate; injection DQ as <-; split; (reflexivity || lia). }
  destruct DQ' as [DQ' Q1].
  pose proof (@walks_price b64 (B64 fexp flog) env k seed dim DIM (one_not_zero fexp flog) la P W w wm _ N _ d 0%nat L NA A HB HP DQ' D
    (ctor_at env k seed dim ltac:(lia)) ltac:(lia)) as X.
  fold price in X. cbv zeta in X. rewrite Nat.add_0_l in X.
  assert (U : forall i, used i <-> (0 <= i < Z.to_nat N * (Z.to_nat q * Z.to_nat dim))%nat).
  { intros i. unfold used. rewrite <- !Z2Nat.inj_mul by lia. rewrite Z.mul_assoc. lia. }
  assert (FI : forall i, fits (num := B64 fexp flog) env k seed dim i <-> inside (x i)) by (intros; apply fits_inside).
  destruct X as [[[v V] F]|[V (i & I & NF)]].
  - split; split.
    + intros _ i I. apply FI, F. now apply U.
    + intros _. now exists v.
    + intros E. congruence.
    + intros (i & I & NI). exfalso. apply NI, FI, F. now apply U.
  - split; split.
    + intros [v E]. congruence.
    + intros H. exfalso. apply NF, FI, H. now apply U.
    + intros _. exists i. split; [now apply U|]. now rewrite <- FI.
    + auto.
Qed.
Print Assumptions C106_quasi_run.

(** A European call on 3 dates, one million simulations. *)
Definition j_market : Market b64 :=
  mkMarket (b64_ofZ 0) [("AAPL"%string, 0%nat)] [] [mkStock (b64_ofZ 100) (b64_ofZ 1) None] [].
Definition j_params (t : b64) : Params b64 := [("ticker"%string, VString "AAPL"); ("T"%string, VDouble t); ("K"%string, VDouble (b64_ofZ 100))].
Definition j_option (t : b64) : Option b64 := mkOption European "AAPL" t (PVanilla Call (b64_ofZ 100)) None 0.
Definition j_pricer (t : b64) (k : ModelKind b64) : Pricer b64 := mkPricer CSinglePath (j_option t) (Some 0%nat) (mkModelObj (mkModel "AAPL" 0 k) 0 0) None None.
Lemma j_made : forall fexp flog t, b64_ltb t (b64_ofZ 0) = false -> @made b64 (B64 fexp flog) (j_option t).
Proof.
  intros fexp flog t H. exists European, (j_params t), j_market. left. apply create_ok; [now left|].
  unfold describes. cbn [j_option optKind optTicker optT optPayoff optBarrier optObj].
  split; [reflexivity|]. split; [reflexivity|]. split; [now exists 0%nat|]. split; [reflexivity|]. split; [exact H|].
  split; [|split; reflexivity]. exists (b64_ofZ 100). split; [reflexivity|]. split; [vm_compute; reflexivity|reflexivity].
Qed.

Definition j_env (x : b64) : Env b64 := mkEnv (fun _ _ => b64_ofZ 0) (fun _ _ => 0%Z) (fun _ _ _ _ _ => x) (fun _ => b64_ofZ 2).
Lemma inside_true : forall x, b64_ltb (b64_ofZ 0) x && b64_ltb x (b64_ofZ 1) = true -> inside x.
Proof.
  intros x H. apply andb_true_iff in H. destruct H as [H H']. apply ltb_true_iff in H, H'. intros _.
  change (b64_ofZ 0) with (n0 : b64) in H. change (b64_ofZ 1) with (n1 : b64) in H'. rewrite n0_val in H. rewrite n1_val in H'. lra.
Qed.
Lemma outside_true : forall x, b64_leb x (b64_ofZ 0) || b64_leb (b64_ofZ 1) x = true -> ~ inside x.
Proof.
  intros x H I. change (b64_ofZ 0) with (n0 : b64) in H. change (b64_ofZ 1) with (n1 : b64) in H.
  apply orb_true_iff in H. destruct H as [H|H]; apply leb_true_iff in H; rewrite ?n0_val, ?n1_val in H; specialize (I ltac:(tauto)); lra.
Qed.
Example C106_ex : forall fexp flog la, 
  let price x := fst (@calculatePrice b64 (B64 fexp flog) (j_env x) la (j_pricer (b64_ofZ 1) MGBM)
    (mkWorld [j_market] [Quasi_ctor (j_env x) Sobol 3 7]) 1000000) in
  (exists v, price (b64_ofZ 1) = Ok v) /\ price (b64_ofZ 0) = Throw InvalidArgument /\ price (b64_ofZ 2) = Throw InvalidArgument.
Proof.
  intros fexp flog la price.
  assert (X : forall x, ((exists v, price x = Ok v) <-> forall i, (Z.of_nat i < 1000000 * 1 * 3)%Z -> inside (b64_div x (b64_ofZ 2))) /\
    (price x = Throw InvalidArgument <-> exists i, (Z.of_nat i < 1000000 * 1 * 3)%Z /\ ~ inside (b64_div x (b64_ofZ 2)))).
  { intros x.
    apply (C106_quasi_run fexp flog (j_env x) la (j_pricer (b64_ofZ 1) MGBM) (mkWorld [j_market] [Quasi_ctor (j_env x) Sobol 3 7]) j_market j_market Sobol 3 7
      1000000 1 (mkStock (b64_ofZ 100) (b64_ofZ 1) None)); try easy.
    apply j_made. vm_compute. reflexivity. }
  split; [|split].
  - apply X. intros i _. apply inside_true. vm_compute. reflexivity.
  - apply X. exists 0%nat. split; [lia|]. apply outside_true. vm_compute. reflexivity.
  - apply X. exists 0%nat. split; [lia|]. apply outside_true. vm_compute. reflexivity.
Qed.

(** ** C107.  One quasi-random point per path. *)
(** Path number j is a fixed function of point number j. *)
Definition one_point_per_path {T} {num : Num T} (m : StockModel T) : Prop :=
  forall w d t dim, deref (mdStock m) w = Ok d -> (1 <= dim <= INT_MAX)%Z ->
  exists F : list T -> list T, forall env k seed N paths g',
    runs (simulatePrices env m w t) N (Quasi_ctor env k dim seed) = (Ok paths, g') ->
    paths = map (fun j => F (point env k seed dim j)) (seq 0 N).

Lemma point_nth : forall T (num : Num T) env k seed dim j i, (1 <= dim)%Z -> (i < Z.to_nat dim)%nat ->
  nth i (point env k seed dim j) n0 = uniform env k seed dim (j * Z.to_nat dim + i).
Proof.
  intros T num env k seed dim j i D I. unfold point, uniform, coordinate.
  rewrite Nat.div_add_l, Nat.div_small, Nat.add_0_r by lia. rewrite Nat.add_comm, Nat.mod_add, Nat.mod_small by lia.
  rewrite (nth_indep _ n0 (ndiv (e_point env k seed dim j (Z.of_nat 0)) (e_max env k))) by (rewrite map_length, seq_length; exact I).
  rewrite (map_nth (fun c => ndiv (e_point env k seed dim j (Z.of_nat c)) (e_max env k))). now rewrite seq_nth.
Qed.
Lemma point_length : forall T (num : Num T) env k seed dim j, length (point env k seed dim j) = Z.to_nat dim.
Proof. intros. unfold point. now rewrite map_length, seq_length. Qed.

Theorem C107_gbm : forall T (num : Num T) (m : StockModel T), nleb (n1 : T) n0 = false -> mdKind m = MGBM -> one_point_per_path m.
Proof.
  intros T num m ONE K w d t dim D DIM.
  exists (fun us => path_of dim (mdKind m) d (mR w) t (fun i => nth i us n0)). intros env k seed N paths g' R.
  apply (read_runs env k seed dim DIM ONE m w d t 1 ltac:(now rewrite K) D N _ _ _ 0%nat (ctor_at env k seed dim ltac:(lia))) in R.
  subst paths. apply map_ext. intros j. apply (path_of_ext dim DIM) with (q := 1%nat); [now rewrite K|].
  intros i I. rewrite Nat.add_0_l. rewrite point_nth by lia. now rewrite Nat.mul_1_l.
Qed.
Print Assumptions C107_gbm.

(** A Heston path reads two normals per date, so its draws come from two points: *)
Theorem C107_heston_partial : forall T (num : Num T) (m : StockModel T), nleb (n1 : T) n0 = false -> 
  (exists kappa theta sigma_v rho v0 disc, mdKind m = MHeston kappa theta sigma_v rho v0 disc) ->
  forall w d t dim, deref (mdStock m) w = Ok d -> (1 <= dim <= INT_MAX)%Z ->
  exists F : list T -> list T, forall env k seed N paths g',
    runs (simulatePrices env m w t) N (Quasi_ctor env k dim seed) = (Ok paths, g') ->
    paths = map (fun j => F (point env k seed dim (2 * j) ++ point env k seed dim (2 * j + 1))%list) (seq 0 N).
Proof.
  intros T num m ONE (kp & th & sv & rh & v0 & dc & K) w d t dim D DIM.
  exists (fun us => path_of dim (mdKind m) d (mR w) t (fun i => nth i us n0)). intros env k seed N paths g' R.
  apply (read_runs env k seed dim DIM ONE m w d t 2 ltac:(now rewrite K) D N _ _ _ 0%nat (ctor_at env k seed dim ltac:(lia))) in R.
  subst paths. apply map_ext. intros j. apply (path_of_ext dim DIM) with (q := 2%nat); [now rewrite K|].
  intros i I. rewrite Nat.add_0_l. destruct (Nat.lt_ge_cases i (Z.to_nat dim)) as [L|L].
  - rewrite app_nth1 by (now rewrite point_length). rewrite point_nth by lia. f_equal. lia.
  - rewrite app_nth2; rewrite point_length; [|exact L]. rewrite point_nth by lia. f_equal. lia.
Qed.
Print Assumptions C107_heston_partial.

(** ... and one point does not determine it. *)
Definition q_env (x : R) : Env R :=
  mkEnv (fun _ _ => 0%R) (fun _ _ => 0%Z) (fun _ _ _ i _ => match i with O => 1/2 | _ => x end)%R (fun _ => 1%R).
Definition q_market : Market R := mkMarket 0%R [("AAPL"%string, 0%nat)] [] [mkStock 100 (1/5) None]%R [].

Theorem C107_heston_refuted : exists m : StockModel R,
  Heston_ctor "AAPL" q_market 1%R 1%R 1%R 0%R 1%R None = Ok m /\ ~ one_point_per_path m.
Proof.
  eexists. split.
  { unfold Heston_ctor, StockModel_ctor. cbn [getStockData q_market mMap dget String.eqb Ascii.eqb Bool.eqb bind deref mHeap nth_error].
    unfold n0, n1. cbn [nltb Rnum nopp nofZ]. rewrite !Rlt_bool_false by lra. reflexivity. }
  intros H. specialize (H q_market (mkStock 100 (1/5) None)%R 1%R 1%Z eq_refl ltac:(unfold INT_MAX; lia)). destruct H as [F H].
  assert (ONE : nleb (n1 : R) n0 = false) by (unfold n0, n1; cbn; apply Rle_bool_false; lra).
  assert (DIM : (1 <= 1 <= INT_MAX)%Z) by (unfold INT_MAX; lia).
  assert (P : forall u : nat -> R, path_of 1 (MHeston 1 1 1 0 1 CIREuler)%R (mkStock 100 (1/5) None)%R 0%R 1%R u =
    [100 * exp ((0 - 0 - nhalf * nmax 1 0) * (1 / 1) + sqrt (nmax 1 0 * (1 / 1)) * (0 * normal_of (u 0%nat) + sqrt (1 - 0 * 0) * normal_of (u 1%nat)))]%R)
    by reflexivity.
  assert (G : forall x z, (0 < x < 1)%R -> snd_inv_cdf x = Ok z ->
    F [1/2]%R = [100 * exp ((0 - 0 - nhalf * nmax 1 0) * (1 / 1) + sqrt (nmax 1 0 * (1 / 1)) * (0 * 0 + sqrt (1 - 0 * 0) * z))]%R).
  { intros x z X Z.
    set (m := mkModel "AAPL" 0 (MHeston 1 1 1 0 1 CIREuler)%R) in *.
    assert (HALF : snd_inv_cdf (1/2)%R = Ok 0%R).
    { destruct (C28_symmetry_sign (1/2) ltac:(lra)) as (y & Y & _ & _ & _ & Y0). rewrite Y. f_equal. now apply Y0. }
    assert (U0 : uniform (q_env x) Sobol 0 1 0 = (1/2)%R) by (change ((1 / 2) / 1 = 1 / 2)%R; field).
    assert (U1 : uniform (q_env x) Sobol 0 1 1 = x) by (change (x / 1 = x)%R; field).
    destruct (walks_simulate (q_env x) Sobol 0 1 DIM ONE m q_market (mkStock 100 (1/5) None)%R 1%R 2 eq_refl eq_refl 0%nat _ (ctor_at (q_env x) Sobol 0 1 ltac:(lia)))
      as [(p & g' & E & _)|(g' & i & E & I & NF)].
    - assert (R : runs (simulatePrices (q_env x) m q_market 1%R) 1 (Quasi_ctor (q_env x) Sobol 1 0) = (Ok [p], g')) by (cbn [runs]; now rewrite E).
      apply H in R. cbn [seq map] in R. injection R as R.
      replace (point (q_env x) Sobol 0 1 0) with [1/2]%R in R by (change ([1 / 2] = [(1 / 2) / 1])%R; f_equal; field).
      rewrite <- R. destruct (read_path (q_env x) Sobol 0 1 DIM ONE m q_market (mkStock 100 (1/5) None)%R 1%R 2 _ _ _ 0%nat eq_refl eq_refl (ctor_at (q_env x) Sobol 0 1 ltac:(lia)) E) as [_ ->].
      cbn [mdKind m mR q_market]. rewrite P. cbn [Nat.add]. rewrite U0, U1. unfold normal_of. now rewrite HALF, Z.
    - exfalso. apply NF. unfold fits. fold (uniform (q_env x) Sobol 0 1 i). destruct i as [|[|i]]; [rewrite U0|rewrite U1|cbn in I; lia]; eauto. }
  destruct (C28_symmetry_sign (1/4) ltac:(lra)) as (a & A & _ & A0 & _). specialize (A0 ltac:(lra)).
  destruct (C28_symmetry_sign (3/4) ltac:(lra)) as (b & B & _ & _ & B0 & _). specialize (B0 ltac:(lra)).
  pose proof (G (1/4)%R a ltac:(lra) A) as G1. rewrite (G (3/4)%R b ltac:(lra) B) in G1. injection G1 as G1.
  apply Rmult_eq_reg_l in G1; [|lra]. apply exp_inv, Rplus_eq_reg_l in G1.
  replace (nmax 1 0)%R with 1%R in G1 by (unfold nmax; cbn; rewrite Rlt_bool_false by lra; reflexivity).
  replace (1 * (1 / 1))%R with 1%R in G1 by field. replace (1 - 0 * 0)%R with 1%R in G1 by ring. rewrite sqrt_1 in G1. lra.
Qed.
Print Assumptions C107_heston_refuted.

Example C107_ex : exists m : StockModel R, GBM_ctor "AAPL" q_market = Ok m /\ one_point_per_path m.
Proof.
  eexists. split; [reflexivity|]. apply C107_gbm; [|reflexivity]. unfold n0, n1. cbn. apply Rle_bool_false. lra.
Qed.
