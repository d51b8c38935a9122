(** Properties C26-C31: distributions and number generators. *)
From Coq Require Import String List ZArith Reals Bool Lra Lia.
From Flocq Require Import Core.
From Verif Require Import M_Num M_Outcome M_Dict M_Stock M_Market M_Random M_Model
  S_Double S_Random L_B64 L_Random L_RandomModel L_InvCdf.
Import ListNotations.

(** ** C26: number [i] of all draws is the inversion of coordinate [i mod dim] of point
    [i / dim]; nothing is undefined. *)
Theorem C26_quasi_walk : forall T (num : Num T) (env : Env T) k dim seed ds,
  (1 <= dim <= INT_MAX)%Z ->
  fst (draws env ds (Quasi_ctor env k dim seed)) =
    map (fun '(i, d) => inv_cdf d (coordinate env k seed dim i / e_max env k)%num)
        (combine (seq 0 (length ds)) ds) /\
  ~ In UB (fst (draws env ds (Quasi_ctor env k dim seed))).
Proof.
  intros T num env k dim seed ds D.
  destruct (draws_at env k seed dim ds 0 (Quasi_ctor env k dim seed)) as [E _].
  { unfold INT_MAX, UINT_MOD in *; lia. } { left; lia. } { apply ctor_at; lia. }
  split; [exact E|]. rewrite E, in_map_iff. intros ([i d] & U & _). now apply inv_cdf_not_UB in U.
Qed.
Print Assumptions C26_quasi_walk.

(** With more than INT_MAX dimensions the int step counter overflows. *)
Theorem C26_int_counter_refuted : exists dim, (1 <= dim < UINT_MOD)%Z /\
  forall T (num : Num T) (env : Env T) k seed ds d, length ds = Z.to_nat INT_MAX ->
  fst (draw env d (snd (draws env ds (Quasi_ctor env k dim seed)))) = UB.
Proof.
  exists (INT_MAX + 1)%Z. split; [unfold INT_MAX, UINT_MOD; lia|].
  intros T num env k seed ds d L.
  destruct (draws_at env k seed (INT_MAX + 1) ds 0 (Quasi_ctor env k (INT_MAX + 1) seed)) as [_ A].
  { unfold INT_MAX, UINT_MOD in *; lia. } { right; lia. } { apply ctor_at; unfold INT_MAX; lia. }
  rewrite Nat.add_0_l, L in A.
  destruct (quasi_overflow_at env k seed (INT_MAX + 1)%Z _ ltac:(unfold INT_MAX, UINT_MOD; lia) A) as (g' & E).
  destruct A as (Q & _). unfold draw. rewrite Q. unfold sbind. now rewrite E.
Qed.
Print Assumptions C26_int_counter_refuted.

(** Points whose coordinates name themselves, read through the logistic-like identity
    inversion: three draws of dimension two. *)
Definition env_ex : Env R :=
  mkEnv (fun _ h => match h with EvDraw (SUniform a b) :: _ => a | _ => 0%R end)
        (fun _ _ => 0%Z)
        (fun _ _ _ i c => (IZR (Z.of_nat i) + (IZR c + 1) / 4)%R) (fun _ => 1%R).
Example C26_ex : fst (draws env_ex [DStdNormal; DPoisson 1%R; DStdNormal] (Quasi_ctor env_ex Sobol 2 7)) =
  [snd_inv_cdf ((0 + (0 + 1) / 4) / 1)%R; Throw LogicError; snd_inv_cdf ((1 + (0 + 1) / 4) / 1)%R].
Proof. reflexivity. Qed.

(** ** C27: refuted, the seed of a pseudo-random generator has no effect at all *)
Theorem C27_seed_refuted : exists s1 s2 : Z, s1 <> s2 /\
  forall T (num : Num T) (env : Env T) dim,
  (forall ds, fst (draws env ds (Pseudo_ctor dim s1)) = fst (draws env ds (Pseudo_ctor dim s2))) /\
  (forall m w t, fst (simulatePrices env m w t (Pseudo_ctor dim s1)) =
                 fst (simulatePrices env m w t (Pseudo_ctor dim s2))).
Proof.
  exists 1%Z, 2%Z. split; [easy|]. intros T num env dim. split.
  - intros ds. apply draws_seed, gsim_ctor.
  - intros m w t. apply respects_simulate, gsim_ctor.
Qed.
Print Assumptions C27_seed_refuted.

(** What holds: equal streams for any two seeds, in particular for equal ones, also for
    the constructor that takes a seed from std::random_device. *)
Theorem C27_reproducible_partial : forall T (num : Num T) (env : Env T) dim s1 s2,
  (forall ds, fst (draws env ds (Pseudo_ctor dim s1)) = fst (draws env ds (Pseudo_ctor1 dim s2))) /\
  (forall m w t, fst (simulatePrices env m w t (Pseudo_ctor dim s1)) =
                 fst (simulatePrices env m w t (Pseudo_ctor1 dim s2))) /\
  (forall m w a b c, fst (simulatePriceBackward env m w a b c (Pseudo_ctor dim s1)) =
                     fst (simulatePriceBackward env m w a b c (Pseudo_ctor1 dim s2))) /\
  (forall dim' ds, fst (draws env ds (Pseudo_ctor dim s1)) = fst (draws env ds (Pseudo_ctor1 dim' s2))).
Proof.
  intros. repeat split; intros.
  - apply draws_seed, gsim_ctor.
  - apply respects_simulate, gsim_ctor.
  - apply respects_backward, gsim_ctor.
  - apply draws_dim; reflexivity.
Qed.
Print Assumptions C27_reproducible_partial.

Example C27_ex : fst (draws env_ex [DStdNormal; DStdNormal] (Pseudo_ctor 2 7)) = fst (draws env_ex [DStdNormal; DStdNormal] (Pseudo_ctor1 5 8)) /\
  exists x y, fst (draws env_ex [DStdNormal; DStdNormal] (Pseudo_ctor 2 7)) = [Ok x; Ok y].
Proof. split; [reflexivity|]. do 2 eexists. reflexivity. Qed.

(** ** C28 *)
Theorem C28_domain : forall fexp flog (q : b64),
  (@snd_inv_cdf _ (B64 fexp flog) q = Throw InvalidArgument <-> notnan q /\ (val q <= 0 \/ 1 <= val q)%R) /\
  (isOk (@snd_inv_cdf _ (B64 fexp flog) q) = true <-> ~ notnan q \/ (0 < val q < 1)%R).
Proof.
  intros fexp flog q.
  assert (E : (@nleb _ (B64 fexp flog) q n0 || @nleb _ (B64 fexp flog) n1 q)%bool = true <->
              notnan q /\ (val q <= 0 \/ 1 <= val q)%R).
  { change ((b64_leb q (n0 : b64) || b64_leb (n1 : b64) q)%bool = true <-> notnan q /\ (val q <= 0 \/ 1 <= val q)%R).
    rewrite Bool.orb_true_iff, !leb_true_iff, n0_val, n1_val.
    pose proof n0_notnan; pose proof n1_notnan. tauto. }
  unfold snd_inv_cdf. destruct (_ || _)%bool eqn:B.
  - destruct (proj1 E eq_refl) as [N V]. cbn [isOk]. split; split; intros H; try easy.
    exfalso. destruct H as [H|H]; [now apply H|lra].
  - cbv zeta. assert (G : ~ (notnan q /\ (val q <= 0 \/ 1 <= val q)%R)) by (intros X; now apply E in X).
    split; split; intros H.
    + now destruct (nltb _ _).
    + now destruct G.
    + destruct (BinarySingleNaN.is_nan q) eqn:N; [left; unfold notnan; congruence|right].
      assert (~ (val q <= 0 \/ 1 <= val q)%R) by tauto. lra.
    + now destruct (nltb _ _).
Qed.
Print Assumptions C28_domain.

Theorem C28_symmetry_sign : forall q : R, (0 < q < 1)%R ->
  exists x, snd_inv_cdf q = Ok x /\ snd_inv_cdf (1 - q)%R = Ok (- x)%R /\
    (q < 1/2 -> x < 0)%R /\ (q > 1/2 -> x > 0)%R /\ (q = 1/2 -> x = 0)%R.
Proof.
  intros q Q. rewrite !inv_cdf_R by lra.
  destruct (Rlt_bool_spec (1/2) q) as [H|H]; destruct (Rlt_bool_spec (1/2) (1-q)%R) as [H'|H']; try lra.
  - exists (- half_inv (1 - q))%R. pose proof (half_inv_neg (1 - q)%R).
    rewrite Ropp_involutive. repeat split; try (intros; lra).
  - exists (half_inv q). replace (1 - (1 - q))%R with q by lra.
    pose proof (half_inv_neg q). repeat split; intros; lra.
  - assert (q = 1/2)%R by lra. subst q. exists 0%R. replace (1 - 1/2)%R with (1/2)%R by lra.
    rewrite half_inv_half. repeat split; try (intros; lra). f_equal. lra.
Qed.
Print Assumptions C28_symmetry_sign.

Example C28_ex : @snd_inv_cdf b64 _ n0 = Throw InvalidArgument /\
  isOk (@snd_inv_cdf b64 _ b64_nan) = true /\ isOk (@snd_inv_cdf b64 _ nhalf) = true.
Proof. repeat split; vm_compute; reflexivity. Qed.

(** ** C29 *)
Theorem C29_increasing : forall p q : R, (0 < p)%R -> (p < q)%R -> (q < 1)%R ->
  exists x y, snd_inv_cdf p = Ok x /\ snd_inv_cdf q = Ok y /\ (x < y)%R.
Proof.
  intros p q P PQ Q. rewrite !inv_cdf_R by lra. do 2 eexists. split; [reflexivity|]. split; [reflexivity|].
  destruct (Rlt_bool_spec (1/2) p) as [H|H]; destruct (Rlt_bool_spec (1/2) q) as [H'|H']; try lra.
  - apply Ropp_lt_contravar. apply half_inv_increasing; lra.
  - pose proof (half_inv_neg (1 - q)%R).
    destruct (Req_dec p (1/2)) as [->|N]. rewrite half_inv_half; lra.
    pose proof (half_inv_neg p). lra.
  - apply half_inv_increasing; lra.
Qed.
Print Assumptions C29_increasing.

(** Across the branch boundary at 0.08. *)
Example C29_ex : exists x y, snd_inv_cdf (8/100)%R = Ok x /\ snd_inv_cdf (81/1000)%R = Ok y /\ (x < y)%R.
Proof. apply C29_increasing; lra. Qed.

(** ** C30: refuted *)
Theorem C30_uniform_interval_refuted : exists a b : R, (a < b)%R /\ Distr_ctor (DUniform a b) = Ok (DUniform a b) /\
  forall env g, env_respects_std env -> gQuasi g = None ->
  exists x, fst (draw env (DUniform a b) g) = Ok x /\ ~ (a <= x < b)%R.
Proof.
  exists 2%R, 3%R. split; [lra|]. split.
  { cbn. rewrite Rle_bool_false by lra. reflexivity. }
  intros env g (U & _) Q. unfold draw. rewrite Q. cbn [std_object fst].
  eexists. split; [reflexivity|]. specialize (U (gEngine g) (gHist g) 0 1 ltac:(lra))%R.
  intros H. change (n0 : R) with 0%R in *. change (n1 : R) with 1%R in *. lra.
Qed.
Print Assumptions C30_uniform_interval_refuted.

(** What holds: the draws always lie in [0, 1), so the interval is right for the default
    arguments; an empty interval is rejected. *)
Theorem C30_uniform_unit_partial : forall (a b : R),
  (Distr_ctor (DUniform a b) = Throw InvalidArgument <-> (b <= a)%R) /\
  forall env g, env_respects_std env -> gQuasi g = None ->
  exists x, fst (draw env (DUniform a b) g) = Ok x /\ (0 <= x < 1)%R.
Proof.
  intros a b. split.
  { cbn. destruct (Rle_bool_spec b a); split; intros; try easy; lra. }
  intros env g (U & _) Q. unfold draw. rewrite Q. cbn [std_object fst].
  eexists. split; [reflexivity|]. exact (U (gEngine g) (gHist g) 0 1 ltac:(lra))%R.
Qed.
Print Assumptions C30_uniform_unit_partial.

Example C30_ex : env_respects_std env_ex.
Proof. unfold env_respects_std; cbn. repeat split; intros; lra || lia. Qed.

(** ** C31 *)
Theorem C31_jump_models_need_pseudo : forall T (num : Num T) (env : Env T) q dim seed ds m w d t,
  (1 <= dim <= INT_MAX)%Z -> deref (mdStock m) w = Ok d ->
  match mdKind m with MGBM | MHeston _ _ _ _ _ _ => False | _ => True end ->
  exists e, fst (simulatePrices env m w t (snd (draws env ds (Quasi_ctor env q dim seed)))) = Throw e.
Proof.
  intros T num env q dim seed ds m w d t D L K. unfold simulatePrices, sbind at 1, slift. rewrite L.
  destruct (jump_quasi_throws env (mdKind m) d (mR w) t (snd (draws env ds (Quasi_ctor env q dim seed))))
    as (e & g' & E).
  - now destruct (mdKind m).
  - now apply qok_draws.
  - exists e. now rewrite E.
Qed.
Print Assumptions C31_jump_models_need_pseudo.

Open Scope string_scope.
Definition w_one : Market R := mkMarket (5/100)%R [("AAPL", 0%nat)] [] [mkStock 100 (2/10) None]%R [].
Example C31_ex :
  fst (simulatePrices env_ex (mkModel "AAPL" 0 (MMerton 1 0 1)) w_one 1 (Quasi_ctor env_ex Sobol 2 7))%R = Throw LogicError
  /\ deref 0 w_one = Ok (mkStock 100 (2/10) None)%R.
Proof.
  split; [|reflexivity]. unfold simulatePrices, kind_prices, merton_prices, sbind, slift, sfor_int.
  cbn -[snd_inv_cdf]. unfold new_dist, Distr_ctor. cbn -[snd_inv_cdf].
  rewrite !Rle_bool_false by (unfold n0, n1; cbn; lra). cbn -[snd_inv_cdf].
  change (Pos.to_nat 2) with 2%nat. cbn [siter]. unfold sbind, draw. cbn -[snd_inv_cdf].
  rewrite inv_cdf_R by lra. reflexivity.
Qed.

(** C76: the header of FaureGenerator announces (seed, dim), its definition takes (dim, seed). *)
Theorem C76_faure_arguments_refuted : exists seed dim : Z, (1 <= dim <= INT_MAX)%Z /\ (1 <= seed <= INT_MAX)%Z /\
  forall T (num : Num T) (env : Env T), getDim (FaureGenerator_new env seed dim) <> dim.
Proof. exists 42%Z, 10%Z. repeat split; unfold INT_MAX; try lia. intros. cbn. lia. Qed.
Print Assumptions C76_faure_arguments_refuted.

Theorem C76_sobol_arguments_partial : forall T (num : Num T) (env : Env T) dim seed,
  getDim (SobolGenerator_new env dim seed) = dim /\
  gSeed (SobolGenerator_new env dim seed) = seed /\
  (forall a b, getDim (FaureGenerator_new env a b) = a /\ gSeed (FaureGenerator_new env a b) = b).
Proof. intros. repeat split. Qed.
Print Assumptions C76_sobol_arguments_partial.
