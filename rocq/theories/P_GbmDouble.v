(** Property C127: geometric Brownian paths, and European prices simulated from them, in binary64
    against exact arithmetic on the same random numbers. *)
From Coq Require Import String List ZArith Bool Lia Reals Lra.
From Flocq Require Import Core BinarySingleNaN.
From Verif Require Import M_Num M_Outcome M_Dict M_Stock M_Market M_Payoff M_Option M_Random M_Model
  M_Regression M_MonteCarlo M_Builder S_Double S_Order S_Random S_Model S_MonteCarlo S_McPaths S_Libm S_GbmDouble
  L_B64 L_Order L_MonteCarlo L_McPaths L_McRound L_Near L_GbmDouble L_MeanDouble L_PathDouble L_AccTail P_AccDouble.
Import ListNotations.
Local Open Scope R_scope.

(** ** Paths *)
Section Loop.
Variables (fexp flog : b64 -> b64) (env : Env b64).
Local Instance dbl : Num b64 := B64 fexp flog.

Lemma loop64 : forall (F : b64 -> b64) dist zs i S p g g',
  draws env (repeat dist (length zs)) g = (map Ok zs, g') ->
  siter (length zs) i (fun _ '(S, prices) =>
     sbind (draw env dist) (fun z => sret (b64_mul S (fexp (F z)), prices ++ [b64_mul S (fexp (F z))]))) (S, p) g =
  (Ok (fold_left (fun S z => b64_mul S (fexp (F z))) zs S, p ++ scan (fun S z => b64_mul S (fexp (F z))) S zs), g').
Proof.
  intros F dist. induction zs as [|z zs IH]; intros i S p g g' D.
  - cbn in *. injection D as <-. rewrite app_nil_r. reflexivity.
  - cbn [length repeat draws] in D. destruct (draw env dist g) as [o g1] eqn:D1. destruct (draws env (repeat dist (length zs)) g1) as [os g2] eqn:D2.
    cbn [map] in D. injection D as -> -> ->. cbn [length siter]. unfold sbind at 1. unfold sbind at 1. rewrite D1. unfold sret at 1.
    rewrite (IH _ _ _ _ _ D2). do 3 f_equal. cbn [scan]. rewrite <- app_assoc. reflexivity.
Qed.
Lemma gbm64 : forall d r t g zs g', (0 <= gDim g <= INT_MAX)%Z -> length zs = Z.to_nat (gDim g) ->
  draws env (repeat DStdNormal (length zs)) (snd (new_dist DStdNormal g)) = (map Ok zs, g') ->
  gbm_prices env d r t g =
    (Ok (scan (fun S z => b64_mul S (fexp (exponent64 r (coupon d) (sigma_ d) t z (gDim g)))) (S_ d) zs), g').
Proof.
  intros d r t g zs g' G L D. unfold gbm_prices. cbv zeta. unfold sbind at 1.
  assert (E : new_dist DStdNormal g = (Ok DStdNormal, snd (new_dist DStdNormal g))) by reflexivity.
  rewrite E. unfold sfor_int, getDim. destruct (Z.leb_spec (gDim g) INT_MAX); [|lia].
  rewrite <- L. unfold sbind at 1.
  pose proof (loop64 (fun z => exponent64 r (coupon d) (sigma_ d) t z (gDim g)) DStdNormal zs 0 (S_ d) [] _ _ D) as B.
  match type of B with ?l = _ => match goal with |- context [siter ?n ?i ?b ?s ?h] => change (siter n i b s h) with l end end.
  cbv beta in B |- *. rewrite B. reflexivity.
Qed.
End Loop.

Lemma forall2_nth : forall {A B} (P : A -> B -> Prop) l m, length l = length m ->
  (forall k x y, nth_error l k = Some x -> nth_error m k = Some y -> P x y) -> Forall2 P l m.
Proof.
  intros A B P. induction l as [|a l IH]; intros [|b m] L H; cbn in L; try discriminate; constructor.
  - exact (H 0%nat a b eq_refl eq_refl).
  - apply IH; [congruence|]. intros k x y X Y. exact (H (Datatypes.S k) x y X Y).
Qed.
Lemma nth_forall : forall {A} (P : A -> Prop) l k x, Forall P l -> nth_error l k = Some x -> P x.
Proof. intros A P l k x F E. apply nth_error_In in E. rewrite Forall_forall in F. auto. Qed.

(** ** C127.  Every price of a path. *)
Lemma size_nonneg : forall r c sigma dt z, 0 <= sigma -> 0 <= dt -> 0 <= step_size r c sigma dt z.
Proof.
  intros r c sigma dt z S D. unfold step_size. pose proof (Rabs_pos r). pose proof (Rabs_pos c). pose proof (Rabs_pos z). pose proof (sqrt_pos dt).
  assert (0 <= sigma * sigma) by (apply Rmult_le_pos; lra).
  apply Rplus_le_le_0_compat; [apply Rmult_le_pos; lra|]. apply Rmult_le_pos; [apply Rmult_le_pos; lra|lra].
Qed.
Lemma log_error_low : forall r c sigma dt zs, 0 <= sigma -> 0 <= dt -> 12/10000000000000000 * INR (length zs) <= log_error r c sigma dt zs.
Proof.
  intros r c sigma dt zs S D. unfold log_error. apply Rmult_le_compat_l; [lra|]. induction zs as [|z zs IH]; [cbn; lra|].
  cbn [map length]. rewrite Rsum_cons, S_INR. pose proof (size_nonneg r c sigma dt z S D). lra.
Qed.
Lemma log_error_prefix : forall r c sigma dt zs k, 0 <= sigma -> 0 <= dt -> log_error r c sigma dt (firstn k zs) <= log_error r c sigma dt zs.
Proof.
  intros r c sigma dt zs k S D. unfold log_error. apply Rmult_le_compat_l; [lra|]. revert k. induction zs as [|z zs IH]; intros [|k]; try (cbn; lra).
  - cbn [firstn map]. pose proof (log_error_low r c sigma dt (z :: zs) S D) as Q. unfold log_error in Q. cbn [map] in Q. pose proof (pos_INR (length (z :: zs))). change (Rsum []) with 0. lra.
  - cbn [firstn map]. rewrite !Rsum_cons. specialize (IH k). lra.
Qed.
Lemma log_error_small : forall r c sigma dt zs, (Z.of_nat (length zs) <= INT_MAX)%Z -> Forall (ordinary_draw r c sigma dt) zs ->
  log_error r c sigma dt (map val zs) <= 1/1000.
Proof.
  intros r c sigma dt zs L F. unfold log_error. assert (Q : Rsum (map (fun z => 1 + step_size r c sigma dt z) (map val zs)) <= 301 * INR (length zs)).
  { clear L. induction F as [|z zs (_ & _ & Z) F IH]; [cbn; lra|]. cbn [map length]. rewrite Rsum_cons, S_INR. lra. }
  assert (INR (length zs) <= 2147483647) by (rewrite INR_IZR_INZ; apply IZR_le; unfold INT_MAX in L; lia). lra.
Qed.

Theorem C127_path : forall fexp flog env m w d t g zs g', accurate_exp fexp -> mdKind m = MGBM -> deref (mdStock m) w = Ok d ->
  (1 <= getDim g <= INT_MAX)%Z -> length zs = Z.to_nat (getDim g) ->
  @draws b64 (B64 fexp flog) env (repeat DStdNormal (length zs)) (snd (@new_dist b64 (B64 fexp flog) DStdNormal g)) = (map Ok zs, g') ->
  let r := val (getR w) in let c := val (yield d) in let s := val (sigma_ d) in let dt := val t / IZR (getDim g) in
  let exact := gbm_solution (val (S_ d)) r c s dt (map val zs) in
  ordinary (S_ d) (getR w) (yield d) (sigma_ d) t (getDim g) -> Forall (ordinary_draw r c s dt) zs -> Forall ordinary_price exact ->
  exists path, @simulatePrices b64 (B64 fexp flog) env m w t g = (Ok path, g') /\ length path = length zs /\ length exact = length zs /\
    forall k x y, nth_error path k = Some x -> nth_error exact k = Some y ->
      finite x /\ within (log_error r c s dt (map val (firstn (Datatypes.S k) zs))) (val x) y.
Proof.
  intros fexp flog env m w d t g zs g' AE KM DM LN LZ DR r c s dt exact (FS & FR & FC & FG & FT & B0 & Br & Bc & Bs & Bt) OD OP. unfold getDim in *.
  eexists. split; [|split].
  - unfold simulatePrices. unfold sbind at 1, slift at 1. rewrite DM, KM. cbn [kind_prices]. apply gbm64; [lia|exact LZ|exact DR].
  - apply scan_length.
  - split; [unfold exact, gbm_solution; now rewrite map_length, seq_length, map_length|]. intros k x y X Y.
    assert (K : (k < length zs)%nat). { match type of X with nth_error ?l _ = _ => assert (Q : (k < length l)%nat) by (apply nth_error_Some; rewrite X; discriminate) end. now rewrite scan_length in Q. }
    assert (SB : 0 <= s) by (apply Bs). assert (TB : 0 <= dt) by (fold dt in Bt; lra).
    pose proof (log_error_small r c s dt zs ltac:(lia) OD) as LS.
    assert (CO : exact = scan (fun s0 z => s0 * exp (exponent (mR w) (yield d) (sigma_ d) t z (gDim g))) (val (S_ d)) zs).
    { unfold exact. rewrite <- scan_solution. symmetry. exact (scan_map (fun s0 z => s0 * exp ((r - c - s * s / 2) * dt + s * sqrt dt * z)) val zs (val (S_ d))). }
    rewrite CO in OP, Y.
    destruct (path_within fexp (fun z => exponent64 (mR w) (yield d) (sigma_ d) t z (gDim g)) (fun z => exponent (mR w) (yield d) (sigma_ d) t z (gDim g))
      (fun z => step_size r c s dt (val z)) zs (S_ d) (val (S_ d)) 0 AE) with (k := k) as (a & EA & FA & y' & EY & WY); auto.
    + clear - OD FS FR FC FG FT Br Bc Bs Bt LN. induction OD as [|z zs (FZ & ZB & ZS) OD IH]; constructor; [|exact IH]. split; [|exact ZS].
      apply exponent_rel; auto; unfold INT_MAX in LN; lia.
    + unfold within. rewrite Ropp_0, exp_0. lra.
    + lra.
    + unfold log_error in LS. rewrite map_map in LS. lra.
    + rewrite EY in Y. injection Y as <-. change (coupon d) with (yield d) in X. rewrite EA in X. injection X as <-. split; [exact FA|].
      unfold log_error. rewrite map_map. rewrite Rplus_0_l in WY. exact WY.
Qed.
Print Assumptions C127_path.

(** ** C127.  The price. *)
Lemma paths_drawn : forall fexp flog env m w d t L, accurate_exp fexp -> mdKind m = MGBM -> deref (mdStock m) w = Ok d -> forall zss g g',
  (1 <= getDim g <= INT_MAX)%Z -> @drawn (B64 fexp flog) env (Z.to_nat (getDim g)) g zss g' ->
  let r := val (getR w) in let c := val (yield d) in let s := val (sigma_ d) in let dt := val t / IZR (getDim g) in
  let exact := fun zs => gbm_solution (val (S_ d)) r c s dt (map val zs) in
  ordinary (S_ d) (getR w) (yield d) (sigma_ d) t (getDim g) ->
  Forall (fun zs => Forall (ordinary_draw r c s dt) zs /\ Forall ordinary_price (exact zs) /\ log_error r c s dt (map val zs) <= L) zss ->
  exists paths, runs (@simulatePrices b64 (B64 fexp flog) env m w t) (length zss) g = (Ok paths, g') /\
    Forall2 (fun path zs => path <> [] /\ (Z.of_nat (length path) <= INT_MAX)%Z /\ 12/10000000000000000 * INR (length path) <= L /\ Forall2 (pair_ok L) path (exact zs)) paths zss.
Proof.
  intros fexp flog env m w d t L AE KM DM zss. induction zss as [|zs zss IH]; intros g g' LN DR r c s dt exact OR F.
  - cbn in DR. subst g'. exists []. split; [reflexivity|constructor].
  - cbn [drawn] in DR. destruct DR as (g1 & LZ & D1 & D2). inversion F as [|? ? (OD & OP & LE) F']; subst.
    rewrite <- LZ in D1.
    destruct (C127_path fexp flog env m w d t g zs g1 AE KM DM LN LZ D1 OR OD OP) as (path & E & LP & LX & H).
    assert (G : gDim g1 = gDim g).
    { pose proof (keeps_simulate (num := B64 fexp flog) env m w t g) as K. rewrite E in K. apply K. }
    unfold getDim in *. rewrite <- G in D2, LN. 
    destruct (IH g1 g' LN D2) as (paths & R & FF); [rewrite G; exact OR|rewrite G; exact F'|]. rewrite G in FF.
    exists (path :: paths). split; [cbn [length runs]; rewrite E, R; reflexivity|]. constructor; [|exact FF].
    assert (SB : 0 <= s) by apply OR. assert (TB : 0 <= dt) by (destruct OR as (_ & _ & _ & _ & _ & _ & _ & _ & _ & Q); unfold dt; lra).
    split; [intros ->; cbn in LP; lia|]. split; [rewrite LP; lia|]. split; [rewrite LP, <- (map_length val); eapply Rle_trans; [exact (log_error_low r c s dt _ SB TB)|exact LE]|].
    apply forall2_nth; [etransitivity; [exact LP|symmetry; exact LX]|]. intros k x y X Y. destruct (H k x y X Y) as [FX W]. pose proof (nth_forall _ _ _ _ OP Y) as OY.
    split; [exact FX|]. split; [exact OY|]. refine (within_weak _ _ _ _ (ord_pos _ OY) _ W). rewrite <- firstn_map. eapply Rle_trans; [apply log_error_prefix; assumption|exact LE].
Qed.

Theorem C127_price : forall fexp flog env la P W w wm g N d zss g' L, accurate_exp fexp -> lives_in P W w wm g ->
  mdKind (moModel (pcModel P)) = MGBM -> deref (mdStock (moModel (pcModel P))) wm = Ok d ->
  accepts (pcClass P) (optKind (pcOption P)) = true -> continuous_option (pcOption P) ->
  (1 <= getDim g <= INT_MAX)%Z -> (1 <= N <= INT_MAX)%Z -> length zss = Z.to_nat N ->
  @drawn (B64 fexp flog) env (Z.to_nat (getDim g)) g zss g' ->
  let T := val (optT (pcOption P)) in let D := exp (- val (getR w) * T) in
  let r := val (getR wm) in let c := val (yield d) in let s := val (sigma_ d) in let dt := T / IZR (getDim g) in
  let exact := fun zs => gbm_solution (val (S_ d)) r c s dt (map val zs) in
  ordinary (S_ d) (getR wm) (yield d) (sigma_ d) (optT (pcOption P)) (getDim g) ->
  finite (getR w) -> Rabs (val (getR w) * T) <= 190 ->
  Forall (fun zs => Forall (ordinary_draw r c s dt) zs /\ Forall ordinary_price (exact zs) /\ log_error r c s dt (map val zs) <= L) zss -> L <= 1/1000 ->
  exists v, fst (@calculatePrice b64 (B64 fexp flog) env la P W N) = Ok v /\ finite v /\
    Rabs (val v - D * Rmean (map (fun zs => exact_payoff (pcOption P) (exact zs)) zss)) <=
      (13/10 * L + 25/100000000000000000 * (IZR N + Rabs (val (getR w) * T) + 7)) *
      (D * Rmean (map (fun zs => exchanged (pcOption P) (exact zs)) zss)).
Proof.
  intros fexp flog env la P W w wm g N d zss g' L AE LI KM DM A CO LG LN LZ DR T D r c s dt exact OR FR RB F LB.
  destruct (paths_drawn fexp flog env _ wm d (optT (pcOption P)) L AE KM DM zss g g' LG DR OR F) as (paths & R & FP).
  fold r c s T dt in FP. fold exact in FP.
  set (kappa := 124/100 * L + 13/100000000000000000) in *.
  assert (X : exists vs, omap (path_payoff (num := B64 fexp flog) (pcClass P) (pcOption P)) paths = Ok vs /\
    Forall2 (inexact kappa) vs (map (fun zs => (exact_payoff (pcOption P) (exact zs), exchanged (pcOption P) (exact zs))) zss)).
  { clear - FP A CO LB. induction FP as [|path zs paths zss (NE & LP & LL & PP) FP IH]; [exists []; split; [reflexivity|constructor]|].
    destruct IH as (vs & E & FV).
    destruct (payoff_inexact fexp flog L (pcClass P) (pcOption P) path (exact zs) A CO NE LP (conj LL LB) PP) as (v & EV & IV).
    exists (v :: vs). cbn [omap]. rewrite EV. cbn [bind]. rewrite E. split; [reflexivity|]. now constructor. }
  destruct X as (vs & OM & FV).
  assert (L0 : 0 <= L).
  { destruct zss as [|zs zss]; [cbn in LZ; lia|]. inversion FP as [|p ? ? ? (_ & _ & LL & _) _]; subst. pose proof (pos_INR (length p)). lra. }
  rewrite LZ in R.
  pose proof (paths_price (num := B64 fexp flog) env la P W w wm g N paths vs g' LI ltac:(intros Q; rewrite Q in A; unfold continuous_option in CO; destruct (optKind (pcOption P)); easy) A
    ltac:(intros k Q; rewrite Q in A; unfold continuous_option in CO; destruct k, (optKind (pcOption P)); easy) ltac:(lia) ltac:(lia) R OM) as E.
  eexists. split; [exact E|]. clear E.
  unfold price_of, discount_factor. destruct OR as (_ & _ & _ & _ & FT & _ & _ & _ & _ & Bt). fold T in Bt.
  (* the discount factor *)
  pose proof (Rabs_pos (val (getR w) * T)) as R0.
  assert (FO := finite_opp _ FR). destruct (val_mul _ _ FO FT) as [NM VM]. rewrite val_opp in VM. fold T in VM.
  set (e := b64_mul (b64_opp (getR w)) (optT (pcOption P))) in *.
  assert (RE : rel e (- val (getR w) * T) (Rabs (val (getR w) * T)) (101/100) e0).
  { apply (rel_fl _ _ _ _ 0 0 _ _ NM VM); try lra; [right; replace (- val (getR w) * T) with (- (val (getR w) * T)) by ring; apply Rabs_Ropp|rewrite Rminus_eq_0, Rabs_R0; lra]. }
  destruct RE as (FE & EB & EE).
  assert (E7 : Rabs (val e) <= 700).
  { replace (val e) with (- val (getR w) * T + (val e - - val (getR w) * T)) by ring. eapply Rle_trans; [apply Rabs_triang|]. unfold u0, e0 in EE. lra. }
  destruct (AE e FE E7) as [FF AF].
  assert (W1 : within (1001/1000000000000000000) (val (fexp e)) (exp (val e))).
  { apply (within_close (1/1000000000000000)); try lra. apply exp_pos. }
  pose proof (within_trans _ _ _ _ _ (exp_pos _) W1 (within_exp _ _ _ EE)) as W2. fold D in W2.
  set (delta := 102/100 * (1001/1000000000000000000 + (101/100 * u0 * Rabs (val (getR w) * T) + e0))).
  assert (DE : Rabs (val (fexp e) - D) <= delta * D) by (apply within_abs; [unfold u0, e0; lra|apply exp_pos|exact W2]).
  assert (DB : exp (- 200) <= D <= exp 200). { apply Rabs_le_inv in EB. unfold D. split; apply exp_mono; lra. }
  destruct (mean_inexact N (fexp e) D delta kappa vs _ ltac:(unfold INT_MAX in LN; lia) ltac:(clear - FV LZ; rewrite <- LZ, <- (map_length (fun zs => (exact_payoff (pcOption P) (exact zs), exchanged (pcOption P) (exact zs))) zss); induction FV; cbn; congruence) FV) as [FIN B]; auto.
  - unfold kappa. lra.
  - unfold delta, u0, e0. lra.
  - split; [exact FIN|]. eapply Rle_trans; [rewrite map_map in B; exact B|]. rewrite map_map. cbn [fst snd].
    assert (M0 : 0 <= D * Rmean (map (fun zs => exchanged (pcOption P) (exact zs)) zss)).
    { apply Rmult_le_pos; [left; apply exp_pos|]. destruct (inexact_sums _ _ _ FV) as (_ & S2 & _). rewrite !map_map in S2. cbn [fst snd] in S2.
      unfold Rmean. apply Rmult_le_pos; [lra|]. rewrite map_length, LZ. left. apply Rinv_0_lt_compat. apply lt_0_INR. lia. }
    apply Rmult_le_compat_r; [exact M0|]. unfold delta, kappa, u0, e0. rewrite plus_IZR. assert (1 <= IZR N) by (apply IZR_le; lia). lra.
Qed.
Print Assumptions C127_price.

(** ** A library that qualifies: the true exponential, rounded *)
Lemma exp_700 : exp 700 <= bpow radix2 1014.
Proof.
  destruct exp1_bounds as [_ E]. pose proof (exp_pos 1) as P. set (e := exp 1) in *.
  assert (E9 : exp 9 <= 8192).
  { replace 9 with (1 + 1 + 1 + (1 + 1 + 1) + (1 + 1 + 1)) by lra. rewrite !exp_plus. fold e.
    assert (C : e * e * e <= 20086/1000).
    { assert (e * e <= 738906/100000) by (apply Rle_trans with (27182819/10000000 * (27182819/10000000)); [apply Rmult_le_compat; lra|lra]).
      apply Rle_trans with (738906/100000 * (27182819/10000000)); [apply Rmult_le_compat; try lra; apply Rmult_le_pos; lra|lra]. }
    assert (C0 : 0 <= e * e * e) by (repeat apply Rmult_le_pos; lra). set (q := e * e * e) in *.
    assert (q * q <= 40345/100) by (apply Rle_trans with (20086/1000 * (20086/1000)); [apply Rmult_le_compat; lra|lra]).
    assert (0 <= q * q) by (apply Rmult_le_pos; lra).
    apply Rle_trans with (40345/100 * (20086/1000)); [apply Rmult_le_compat; lra|lra]. }
  apply Rle_trans with (exp (INR 78 * 9)); [apply exp_mono; cbn; lra|].
  assert (Q : forall k, exp (INR k * 9) <= bpow radix2 (13 * Z.of_nat k)).
  { induction k as [|k IH]; [cbn; rewrite Rmult_0_l, exp_0; lra|]. rewrite S_INR. replace ((INR k + 1) * 9) with (INR k * 9 + 9) by ring. rewrite exp_plus.
    replace (13 * Z.of_nat (Datatypes.S k))%Z with (13 * Z.of_nat k + 13)%Z by lia. rewrite bpow_plus. change (bpow radix2 13) with 8192.
    apply Rmult_le_compat; try (left; apply exp_pos); assumption. }
  exact (Q 78%nat).
Qed.
Lemma of_R_wide : forall r, Rabs r <= bpow radix2 1014 -> finite (of_R r) /\ val (of_R r) = rnd r.
Proof.
  intros r B.
  assert (RB : Rabs (rnd r) <= bpow radix2 1014).
  { assert (G : rnd (bpow radix2 1014) = bpow radix2 1014) by (rewrite <- (Rmult_1_l (bpow radix2 1014)); apply (fmt_scaled 1 1014); lia).
    apply Rabs_le_inv in B. apply Rabs_le. rewrite <- G. split; [unfold rnd at 1; rewrite <- round_NE_opp|]; apply round_le; try apply valid_rnd_N; try apply valid_exp_64; lra. }
  assert (RI : Rabs (rnd r) < INF) by (eapply Rle_lt_trans; [exact RB|apply bpow_lt; lia]).
  assert (G : generic_format radix2 (FLT_exp (-1074) 53) (rnd r)) by (unfold rnd; apply generic_format_round; [apply valid_exp_64|apply valid_rnd_N]).
  pose proof (binary_normalize_correct 53 1024 _ _ mode_NE (Ztrunc (scaled_mantissa radix2 (FLT_exp (-1074) 53) (rnd r))) (cexp radix2 (FLT_exp (-1074) 53) (rnd r)) false) as H1.
  cbv zeta in H1. fold (of_R r) in H1. unfold generic_format in G. rewrite <- G in H1.
  change (round radix2 (SpecFloat.fexp 53 1024) (round_mode mode_NE) (rnd r)) with (rnd (rnd r)) in H1.
  assert (RR : rnd (rnd r) = rnd r) by (unfold rnd at 1; apply round_generic; [apply valid_rnd_N|exact G]). rewrite RR in H1.
  rewrite Rlt_bool_true in H1 by exact RI. destruct H1 as (V & F & _). split; [exact F|]. now rewrite val_finite.
Qed.
Definition rounded_exp (x : b64) : b64 := of_R (exp (val x)).
Lemma rounded_exp_ok : accurate_exp rounded_exp.
Proof.
  intros x F B. apply Rabs_le_inv in B. pose proof (exp_pos (val x)) as P. pose proof exp_700 as H7.
  assert (U : exp (val x) <= exp 700) by (apply exp_mono; lra). assert (L : exp (- 700) <= exp (val x)) by (apply exp_mono; lra).
  destruct (of_R_wide (exp (val x))) as [FF V]; [rewrite Rabs_pos_eq; lra|]. unfold rounded_exp. split; [exact FF|]. rewrite V.
  destruct (rnd_error (exp (val x))) as (e & n & E & N & Q). rewrite Q. replace (exp (val x) * (1 + e) + n - exp (val x)) with (exp (val x) * e + n) by ring.
  eapply Rle_trans; [apply Rabs_triang|]. rewrite Rabs_mult, (Rabs_pos_eq (exp (val x))) by lra. pose proof uu_u0 as UU.
  assert (T : eta0 <= 1/10000000000000000 * exp (val x)).
  { apply Rle_trans with (1/10000000000000000 * exp (- 700)); [|lra].
    assert (E1 : exp (- 700) * exp 700 = 1) by (rewrite <- exp_plus; replace (- 700 + 700) with 0 by lra; apply exp_0).
    assert (E2 : bpow radix2 (-1014) * bpow radix2 1014 = 1) by (rewrite <- bpow_plus; reflexivity).
    pose proof (exp_pos (- 700)). pose proof (bpow_gt_0 radix2 (-1014)). assert (E3 : bpow radix2 (-1014) <= exp (- 700)) by nra.
    unfold eta0. replace (bpow radix2 (-1074)) with (bpow radix2 (-60) * bpow radix2 (-1014)) by (rewrite <- bpow_plus; reflexivity).
    change (bpow radix2 (-60)) with (/ 1152921504606846976). lra. }
  assert (exp (val x) * Rabs e <= exp (val x) * u0) by (apply Rmult_le_compat_l; lra). unfold u0 in *. lra.
Qed.

(** Two paths of two dates, every draw 1, rate and volatility 1/2, spot and strike 100: the
    computed price of the call is within 1e-11 of the exact one. *)
Definition half64 : b64 := b64_div (b64_ofZ 5) (b64_ofZ 10).
Definition hmarket : Market b64 := mkMarket half64 [("AAPL"%string, 0%nat)] [] [mkStock (b64_ofZ 100) half64 None] [].
Definition hworld : World b64 := mkWorld [hmarket] [Pseudo_ctor1 2 7].
Definition henv : Env b64 := mkEnv (fun _ _ => b64_ofZ 1) (fun _ _ => 1%Z) (fun _ _ _ _ _ => b64_ofZ 0) (fun _ => b64_ofZ 1).
Definition hcall : Pricer b64 :=
  mkPricer CSinglePath (mkOption European "AAPL" (b64_ofZ 1) (PVanilla Call (b64_ofZ 100)) None 0) (Some 0%nat) (mkModelObj (mkModel "AAPL" 0 MGBM) 0 0) None None.

Example C127_ex : accurate_exp rounded_exp /\
  exists v, fst (@calculatePrice b64 (B64 rounded_exp rounded_log) henv (mkLinAlg (fun _ y => y) (fun _ y => y)) hcall hworld 2) = Ok v /\ finite v /\
    Rabs (val v - exp (- (1/2)) * (100 * exp (3/8 + sqrt (1/2)) - 100)) <= 1/100000000000.
Proof.
  split; [exact rounded_exp_ok|]. destruct half_val as [FH VH]. fold half64 in FH, VH.
  destruct (ofZ_fmt 1 ltac:(lia)) as [F1 V1]. destruct (ofZ_fmt 100 ltac:(lia)) as [F2 V2]. destruct (ofZ_fmt 0 ltac:(lia)) as [F0 V0].
  assert (SQ : 0 <= sqrt (1/2) <= 1). { split; [apply sqrt_pos|]. rewrite <- sqrt_1 at 2. apply sqrt_le_1; lra. }
  assert (OP : ordinary_price 100).
  { split; [apply Rle_trans with (exp 0); [apply exp_mono; lra|rewrite exp_0; lra]|]. pose proof (exp_ineq1_le 200). lra. }
  assert (OS : forall a, 0 <= a <= 2 -> 100 <= 100 * exp a <= 1000).
  { intros a A. pose proof (exp_ineq1_le a). split; [nra|]. pose proof (exp_mono a 2 ltac:(lra)). assert (exp 2 <= 10); [|lra].
    replace 2 with (1 + 1) by lra. rewrite exp_plus. pose proof exp_le_3. pose proof (exp_pos 1). nra. }
  assert (OK : forall a, 0 <= a <= 2 -> ordinary_price (100 * exp a)).
  { intros a A. pose proof (OS a A). destruct OP. split; [lra|]. replace 200 with (100 + 100) by lra. rewrite exp_plus.
    pose proof (exp_ineq1_le 100). nra. }
  set (zs := [b64_ofZ 1; b64_ofZ 1]).
  assert (GS : gbm_solution (val (b64_ofZ 100)) (val half64) (val (b64_ofZ 0)) (val half64) (val (b64_ofZ 1) / 2) (map val zs) =
    [100 * exp (3/16 + 1/2 * sqrt (1/2)); 100 * exp (3/8 + sqrt (1/2))]).
  { unfold zs. cbn [map]. rewrite V0, V1, V2, VH. unfold gbm_solution. cbn [length seq map firstn]. unfold Rsum. cbn [fold_right INR].
    replace (1 / 2) with (1/2) by lra. repeat (f_equal; try lra). }
  assert (SZ : 0 <= step_size (val half64) (val (b64_ofZ 0)) (val half64) (val (b64_ofZ 1) / 2) (val (b64_ofZ 1)) <= 1).
  { unfold step_size. rewrite V0, V1, VH, Rabs_R0, (Rabs_pos_eq (1/2)), (Rabs_pos_eq 1) by lra. lra. }
  assert (LE : log_error (val half64) (val (b64_ofZ 0)) (val half64) (val (b64_ofZ 1) / 2) (map val zs) <= 48/10000000000000000).
  { unfold log_error, zs. cbn [map]. rewrite !Rsum_cons. change (Rsum []) with 0. lra. }
  set (g2 := snd (@draws b64 (B64 rounded_exp rounded_log) henv (repeat DStdNormal 2) (snd (@new_dist b64 (B64 rounded_exp rounded_log) DStdNormal (Pseudo_ctor1 2 7))))).
  set (g3 := snd (@draws b64 (B64 rounded_exp rounded_log) henv (repeat DStdNormal 2) (snd (@new_dist b64 (B64 rounded_exp rounded_log) DStdNormal g2)))).
  destruct (C127_price rounded_exp rounded_log henv (mkLinAlg (fun _ y => y) (fun _ y => y)) hcall hworld hmarket hmarket (Pseudo_ctor1 2 7) 2
    (mkStock (b64_ofZ 100) half64 None) [zs; zs] g3 (48/10000000000000000) rounded_exp_ok) as (v & E & FV & B).
  - repeat split.
  - reflexivity.
  - reflexivity.
  - reflexivity.
  - cbn [hcall pcOption optKind optPayoff continuous_option]. unfold continuous_option. cbn [hcall pcOption optKind optPayoff]. split; [exact F2|]. rewrite V2. destruct OP; lra.
  - vm_compute; split; discriminate.
  - vm_compute; split; discriminate.
  - reflexivity.
  - cbn [drawn]. exists g2. split; [reflexivity|]. split; [reflexivity|]. exists g3. split; [reflexivity|]. split; reflexivity.
  - repeat split; try assumption; cbn [hcall pcOption optT S_ sigma_ hmarket getR mR yield c_]; change (getDim (@Pseudo_ctor1 b64 2 7)) with 2%Z; rewrite ?V0, ?V1, ?V2, ?VH; try (rewrite ?Rabs_R0, ?Rabs_pos_eq; lra); destruct OP; lra.
  - exact FH.
  - cbn [hcall pcOption optT hmarket getR mR]. rewrite V1, VH, Rabs_pos_eq; lra.
  - change (getDim (@Pseudo_ctor1 b64 2 7)) with 2%Z. cbn [hcall pcOption optT S_ sigma_ hmarket getR mR yield c_].
    assert (Q : Forall (ordinary_draw (val half64) (val (b64_ofZ 0)) (val half64) (val (b64_ofZ 1) / 2)) zs).
    { assert (ordinary_draw (val half64) (val (b64_ofZ 0)) (val half64) (val (b64_ofZ 1) / 2) (b64_ofZ 1)); [|unfold zs; constructor; [assumption|]; constructor; [assumption|constructor]].
      split; [exact F1|]. split; [rewrite V1, Rabs_pos_eq; lra|lra]. }
    assert (Q2 : Forall ordinary_price (gbm_solution (val (b64_ofZ 100)) (val half64) (val (b64_ofZ 0)) (val half64) (val (b64_ofZ 1) / 2) (map val zs))).
    { rewrite GS. constructor; [|constructor; [|constructor]]; apply OK; lra. }
    constructor; [|constructor; [|constructor]]; (split; [exact Q|split; [exact Q2|exact LE]]).
  - lra.
  - exists v. split; [exact E|]. split; [exact FV|]. revert B. change (getDim (@Pseudo_ctor1 b64 2 7)) with 2%Z. cbn [hcall pcOption optT S_ sigma_ hmarket getR mR yield c_ map].
    unfold exact_payoff, exchanged, legs. cbn [optKind optPayoff getPayoffType vanilla fst snd]. rewrite GS. cbn [last]. rewrite V1, V2, VH.
    replace (- (1 / 2) * 1) with (- (1/2)) by lra. unfold Rmean. cbn [length INR]. rewrite !Rsum_cons. change (Rsum []) with 0.
    set (S := 100 * exp (3 / 8 + sqrt (1 / 2))). assert (SB := OS (3/8 + sqrt (1/2)) ltac:(lra)). fold S in SB. rewrite Rmax_left by lra. rewrite (Rabs_pos_eq (1/2 * 1)) by lra.
    replace ((S - 100 + (S - 100 + 0)) / (1 + 1)) with (S - 100) by field. replace ((S + 100 + (S + 100 + 0)) / (1 + 1)) with (S + 100) by field.
    intros B. eapply Rle_trans; [exact B|]. assert (exp (- (1/2)) <= 1) by (apply Rle_trans with (exp 0); [apply exp_mono; lra|rewrite exp_0; lra]). pose proof (exp_pos (- (1/2))).
    assert (exp (- (1/2)) * (S + 100) <= 1 * 1100) by (apply Rmult_le_compat; lra).
    assert (0 <= exp (- (1/2)) * (S + 100)) by (apply Rmult_le_pos; lra). lra.
Qed.
