(** Properties C32-C37, C39, C40: the stock models. *)
From Coq Require Import String List ZArith Reals Bool Lra Lia.
From Flocq Require Import Core.
From Verif Require Import M_Num M_Outcome M_Dict M_Stock M_Market M_Random M_Model
  S_Market S_Random S_Model S_Partial L_Market L_Model.
Import ListNotations.
Open Scope string_scope.

(** ** C32.  A path that is produced has one price per step (any number type); on a
    pseudo-random generator the outcome is Ok or, exactly when one of the model's
    distributions rejects its arguments, invalid_argument. *)
Theorem C32_path_length : forall T (num : Num T) (env : Env T) m (w : Market T) t g prices g',
  simulatePrices env m w t g = (Ok prices, g') -> length prices = Z.to_nat (getDim g).
Proof. intros. eapply simulate_length; eauto. Qed.
Print Assumptions C32_path_length.

Theorem C32_path_positive : forall (env : Env R) m (w : Market R) t g prices g' d,
  deref (mdStock m) w = Ok d -> (0 < getPrice d)%R ->
  simulatePrices env m w t g = (Ok prices, g') -> Forall (Rlt 0) prices.
Proof. exact simulate_positive. Qed.
Print Assumptions C32_path_positive.

(** The price at maturity is the last price of the path drawn from the same state. *)
Theorem C32_maturity : forall T (num : Num T) (env : Env T) m (w : Market T) t g,
  match simulatePrices env m w t g with
  | (Ok (p :: prices), g') => simulatePriceAtMaturity env m w t g = (Ok (last prices p), g')
  | (Ok [], g') => simulatePriceAtMaturity env m w t g = (UB, g')
  | (Throw e, g') => simulatePriceAtMaturity env m w t g = (Throw e, g')
  | (UB, g') => simulatePriceAtMaturity env m w t g = (UB, g')
  end.
Proof.
  intros T num env m w t g. unfold simulatePriceAtMaturity, sbind, slift.
  destruct (simulatePrices env m w t g) as [[[|p l]|e|] g']; try reflexivity.
  f_equal. unfold vback. rewrite (app_removelast_last p (l := p :: l)) by discriminate. rewrite rev_app_distr. cbn [rev app].
  f_equal. destruct l; reflexivity.
Qed.
Print Assumptions C32_maturity.

(** The requirements on the model's distributions, for numbers of the exact kind. *)
Definition params_ok (k : ModelKind R) (dt : R) : Prop :=
  match k with
  | MGBM | MHeston _ _ _ _ _ _ => True
  | MBates _ _ _ _ _ lambda _ sigmaJ _ => (0 < lambda * dt /\ 0 < sigmaJ)%R
  | MKou lambda _ eta1 eta2 _ => (0 < lambda * dt /\ 0 < eta1 /\ 0 < eta2)%R
  | MMerton lambda _ sigmaJ => (0 < lambda * dt /\ 0 < sigmaJ)%R
  | MVarianceGamma nu _ _ => (0 < dt / nu /\ 0 < nu)%R
  end.

Theorem C32_path_exists : forall (env : Env R) m (w : Market R) d t dim seed ds,
  deref (mdStock m) w = Ok d -> (1 <= dim <= INT_MAX)%Z ->
  let g := snd (draws env ds (Pseudo_ctor dim seed)) in
  (params_ok (mdKind m) (t / IZR dim) -> exists prices, fst (simulatePrices env m w t g) = Ok prices) /\
  (~ params_ok (mdKind m) (t / IZR dim) -> fst (simulatePrices env m w t g) = Throw InvalidArgument).
Proof.
  intros env m w d t dim seed ds D L g.
  assert (G : gQuasi g = None /\ gDim g = dim).
  { unfold g. clear - L. assert (H : gQuasi (@Pseudo_ctor R dim seed) = None /\ gDim (@Pseudo_ctor R dim seed) = dim) by easy.
    revert H. generalize (@Pseudo_ctor R dim seed). induction ds as [|x ds IH]; intros g H; [exact H|].
    cbn [draws]. unfold draw. destruct H as [H1 H2]. rewrite H1.
    match goal with |- context[draws env ds ?g1] => specialize (IH g1 (conj H1 H2)); destruct (draws env ds g1) end.
    exact IH. }
  destruct G as [Q E]. pose proof (simulate_outcome env m w d t g D Q ltac:(lia)) as O. rewrite E in O.
  assert (P : params_ok (mdKind m) (t / IZR dim) <-> forallb dist_ok (kind_dists (mdKind m) (t / nofZ dim)%num) = true).
  { change (t / nofZ dim)%num with (t / IZR dim)%R. generalize (t / IZR dim)%R as dt; intros dt.
    unfold params_ok, kind_dists. destruct (mdKind m); cbn [forallb dist_ok]; unfold n0, n1; cbn;
    repeat match goal with |- context[Rle_bool ?a ?b] => destruct (Rle_bool_spec a b) end; cbn;
    split; intros; try easy; try tauto; try lra; repeat split; try easy; try lra. }
  destruct (forallb _ _).
  - split; [|tauto]. destruct O as (p & g' & O). exists p. now rewrite O.
  - split; [intros H; apply P in H; discriminate|]. destruct O as (g' & O). now rewrite O.
Qed.
Print Assumptions C32_path_exists.

(** C76 continued: a path on SobolGenerator(dim, seed) has dim prices. *)
Theorem C76_sobol_path_length_partial : forall T (num : Num T) (env : Env T) m (w : Market T) t dim seed prices g',
  simulatePrices env m w t (SobolGenerator_new env dim seed) = (Ok prices, g') -> length prices = Z.to_nat dim.
Proof. intros. apply simulate_length in H. apply H. Qed.
Print Assumptions C76_sobol_path_length_partial.

Definition w_ex : Market R := mkMarket (5/100)%R [("AAPL", 0%nat)] [] [mkStock 100 (2/10) None]%R [].
Example C32_ex : deref (mdStock (mkModel "AAPL" 0 (MMerton 1 0 1)%R)) w_ex = Ok (mkStock 100 (2/10) None)%R /\
  params_ok (MMerton 1 0 1)%R (1 / IZR 12) /\ ~ params_ok (MMerton 0 0 1)%R (1 / IZR 12).
Proof. split; [reflexivity|]. cbn. lra. Qed.

(** ** C33.  Whatever the environment, the draws a client would get are the increments of
    the closed form, and the generator is left as after those draws. *)
Theorem C33_gbm_closed_form : forall (env : Env R) m w d t g zs g',
  mdKind m = MGBM -> deref (mdStock m) w = Ok d -> (0 <= getDim g <= INT_MAX)%Z ->
  length zs = Z.to_nat (getDim g) ->
  draws env (repeat DStdNormal (length zs)) (snd (new_dist DStdNormal g)) = (map Ok zs, g') ->
  simulatePrices env m w t g =
    (Ok (gbm_solution (getPrice d) (getR w) (dividend d) (getSigma d) (t / IZR (getDim g)) zs), g').
Proof.
  intros env m w d t g zs g' K D L Z E. unfold simulatePrices, sbind, slift. rewrite D, K. cbn [kind_prices].
  now apply gbm_closed.
Qed.
Print Assumptions C33_gbm_closed_form.

Theorem C33_forward_curve : forall (env : Env R) m w d t g zs g',
  mdKind m = MGBM -> deref (mdStock m) w = Ok d -> (0 <= getDim g <= INT_MAX)%Z -> getSigma d = 0%R ->
  length zs = Z.to_nat (getDim g) ->
  draws env (repeat DStdNormal (length zs)) (snd (new_dist DStdNormal g)) = (map Ok zs, g') ->
  fst (simulatePrices env m w t g) =
    Ok (map (fun k => getPrice d * exp ((getR w - dividend d) * (INR k * (t / IZR (getDim g)))))%R
            (seq 1 (Z.to_nat (getDim g)))).
Proof.
  intros env m w d t g zs g' K D L Z0 Z E. rewrite (C33_gbm_closed_form env m w d t g zs g' K D L Z E).
  cbn [fst]. f_equal. unfold gbm_solution. rewrite Z, Z0. apply map_ext. intros k. f_equal. f_equal. lra.
Qed.
Print Assumptions C33_forward_curve.

(** Three steps, draws 1, -2, 3. *)
Example C33_ex : let g := Pseudo_ctor 3 7 in let env := env_list [1; -2; 3]%R [] in
  draws env (repeat DStdNormal 3) (snd (new_dist DStdNormal g)) =
    (map Ok [1; -2; 3]%R, snd (draws env (repeat DStdNormal 3) (snd (new_dist DStdNormal g)))) /\
  nth 1 (gbm_solution 100 (5/100) 0 (2/10) 1 [1; -2; 3])%R 0%R =
    (100 * exp ((5/100 - 0 - 2/10 * (2/10) / 2) * ((1 + 1) * 1) + 2/10 * sqrt 1 * (1 + (-2 + 0))))%R.
Proof.
  assert (E : new_dist DStdNormal (Pseudo_ctor 3 7) = (Ok (@DStdNormal R), snd (new_dist DStdNormal (Pseudo_ctor 3 7)))).
  { unfold new_dist, Distr_ctor, n0, n1; cbn. rewrite Rle_bool_false by lra. reflexivity. }
  split; [|reflexivity]. unfold new_dist, Distr_ctor, n0, n1. cbn. rewrite Rle_bool_false by lra. reflexivity.
Qed.

(** ** C34 *)
Theorem C34_bridge_pinned : forall (env : Env R) m w d S_next t_j t_jp1 g S,
  mdKind m = MGBM -> deref (mdStock m) w = Ok d ->
  (0 < getPrice d)%R -> (0 < S_next)%R -> (0 <= t_j <= t_jp1)%R -> (0 < t_jp1)%R ->
  fst (simulatePriceBackward env m w S_next t_j t_jp1 g) = Ok S ->
  (0 < S)%R /\
  (t_j = t_jp1 -> S = S_next) /\
  (t_j = 0 -> S = getPrice d)%R /\
  (getSigma d = 0 -> Rmin (getPrice d) S_next <= S <= Rmax (getPrice d) S_next /\
     ln S = (1 - t_j / t_jp1) * ln (getPrice d) + (t_j / t_jp1) * ln S_next)%R.
Proof.
  intros env m w d Sn a b g S K D P PN A B E. unfold simulatePriceBackward in E. rewrite K in E.
  unfold sbind at 1, slift in E. rewrite D in E.
  destruct (draw env DStdNormal (snd (new_dist DStdNormal g))) as [[z|x|] g'] eqn:F.
  2,3: exfalso; unfold gbm_backward in E; cbv zeta in E; unfold sbind in E;
    (assert (N : new_dist DStdNormal g = (Ok (@DStdNormal R), snd (new_dist DStdNormal g))) by
      (unfold new_dist, Distr_ctor, n0, n1; cbn; rewrite Rle_bool_false by lra; reflexivity));
    rewrite N, F in E; discriminate.
  rewrite (backward_value env d Sn a b g z g' F) in E. cbn [fst] in E. injection E as <-.
  change (getPrice d) with (S_ d) in *. change (getSigma d) with (sigma_ d) in *.
  split; [|split; [|split]].
  - apply Rmult_lt_0_compat; [easy|apply exp_pos].
  - intros ->. apply backward_at_end; lra.
  - intros ->. apply backward_at_start; lra.
  - intros ->. replace (a / b * ln (Sn / S_ d) + sqrt (a * (b - a) / b) * 0 * z)%R
      with (a / b * ln (Sn / S_ d))%R by lra.
    split; [now apply backward_between|].
    rewrite ln_mult; [|easy|apply exp_pos]. rewrite ln_exp. unfold Rdiv at 2. rewrite ln_mult, ln_Rinv; [lra|easy|easy|now apply Rinv_0_lt_compat].
Qed.
Print Assumptions C34_bridge_pinned.

(** Zero volatility, half way from 100 to 144 in log: 120. *)
Example C34_ex : let d := mkStock 100%R 0%R None in let w := mkMarket 0%R [("A", 0%nat)] [] [d] [] in
  forall S, fst (simulatePriceBackward (env_list [5]%R []) (mkModel "A" 0 MGBM) w 144 1 2 (Pseudo_ctor 1 7))%R = Ok S ->
  (ln S = (1 - 1 / 2) * ln 100 + (1 / 2) * ln 144)%R.
Proof.
  intros d w S E. eapply C34_bridge_pinned in E; try reflexivity; cbn; try lra. now apply E.
Qed.

(** The models without a backward simulation say so. *)
Theorem C34_backward_only_gbm : forall T (num : Num T) (env : Env T) m w a b c g,
  mdKind m <> MGBM -> simulatePriceBackward env m w a b c g = (Throw LogicError, g).
Proof. intros T num env m w a b c g N. unfold simulatePriceBackward. destruct (mdKind m); try easy; congruence. Qed.
Print Assumptions C34_backward_only_gbm.

(** ** C35.  Refuted for Heston: the scheme passed by the user never has an effect. *)
Definition scheme_or_euler (vd : option CIRDisc) : CIRDisc := match vd with Some s => s | None => CIREuler end.

Lemma heston_two : forall disc v0 z1 z2 z3 z4,
  fst (heston_prices (env_list [z1; z2; z3; z4]%R []) 0 0 1 0 v0 disc (mkStock 1 1 None) 0 2 (Pseudo_ctor 2 7))%R =
  (let p1 := 1 * exp ((0 - 0 - 1/2 * Rmax v0 0) * (2 / 2) + sqrt (Rmax v0 0 * (2/2)) * (0 * z1 + sqrt (1 - 0 * 0) * z2)) in
   let v1 := cir_update disc v0 (2/2) 0 0 1 z1 in
   Ok [p1; p1 * exp ((0 - 0 - 1/2 * Rmax v1 0) * (2 / 2) + sqrt (Rmax v1 0 * (2/2)) * (0 * z3 + sqrt (1 - 0 * 0) * z4))])%R.
Proof.
  intros disc v0 z1 z2 z3 z4.
  assert (Hh : (nhalf : R) = (1 / 2)%R) by (unfold nhalf, lit; cbn; lra).
  unfold heston_prices. cbv zeta. unfold sbind at 1. unfold new_dist, Distr_ctor, n1, n0; cbn -[nhalf cir_update sfor_int nmax].
  rewrite Rle_bool_false by lra. change (sfor_int 2) with (@siter R (R * R * list R) 2 0).
  cbn [siter]. cbn -[nhalf cir_update nmax]. rewrite Hh, !nmax_R. reflexivity.
Qed.

Theorem C35_heston_scheme_refuted :
  (exists (w : Market R) kappa theta sigma_v rho v0 m (env : Env R) t g,
     Heston_ctor "A" w kappa theta sigma_v rho v0 (Some CIRMilstein) = Ok m /\
     exists d, deref (mdStock m) w = Ok d /\
     fst (simulatePrices env m w t g) <>
     fst (heston_prices env kappa theta sigma_v rho v0 CIRMilstein d (getR w) t g)) /\
  (forall T (num : Num T) tk (w : Market T) kappa theta sigma_v rho v0 vd,
     Heston_ctor tk w kappa theta sigma_v rho v0 vd = Heston_ctor tk w kappa theta sigma_v rho v0 None).
Proof.
  split; [|reflexivity].
  exists (mkMarket 0 [("A", 0%nat)] [] [mkStock 1 1 None] [])%R, 0%R, 0%R, 1%R, 0%R, 1%R,
    (mkModel "A" 0 (MHeston 0 0 1 0 1 CIREuler)%R), (env_list [2; 0; 0; 0]%R []), 2%R, (Pseudo_ctor 2 7).
  split.
  { unfold Heston_ctor, StockModel_ctor. cbn. unfold n0, n1; cbn. rewrite !Rlt_bool_false by lra. reflexivity. }
  exists (mkStock 1 1 None)%R. split; [reflexivity|].
  unfold simulatePrices, sbind, slift. cbn [mdStock mdKind deref nth_error mHeap kind_prices mR getR].
  rewrite !heston_two. cbv zeta. intros H.
  apply (f_equal (fun o => match o with Ok l => nth 1 l 0%R | _ => 0%R end)) in H. cbn [nth] in H.
  apply Rmult_eq_reg_l in H; [|pose proof (exp_pos ((0 - 0 - 1/2 * Rmax 1 0) * (2 / 2) + sqrt (Rmax 1 0 * (2/2)) * (0 * 2 + sqrt (1 - 0 * 0) * 0))); lra].
  apply exp_inv in H.
  rewrite (proj1 (cir_spec 1 (2/2) 0 0 1 2)), (proj2 (cir_spec 1 (2/2) 0 0 1 2)) in H.
  unfold milstein_step, euler_step in H. rewrite (Rmax_left 1 0) in H by lra.
  replace (1 * (2 / 2))%R with 1%R in H by lra. rewrite sqrt_1 in H.
  rewrite !Rmax_left in H by lra. lra.
Qed.
Print Assumptions C35_heston_scheme_refuted.

(** What holds: Bates uses the supplied scheme and defaults to Euler; Heston without a
    supplied scheme uses Euler. *)
Theorem C35_scheme_partial : forall T (num : Num T) tk (w : Market T),
  (forall kappa theta sigma_v rho v0 lambda muJ sigmaJ vd m,
     Bates_ctor tk w kappa theta sigma_v rho v0 lambda muJ sigmaJ vd = Ok m ->
     forall env t g, simulatePrices env m w t g =
       sbind (slift (read tk w)) (fun d => bates_prices env kappa theta sigma_v rho v0 lambda muJ sigmaJ
         (scheme_or_euler vd) d (getR w) t) g) /\
  (forall kappa theta sigma_v rho v0 m,
     Heston_ctor tk w kappa theta sigma_v rho v0 None = Ok m ->
     forall env t g, simulatePrices env m w t g =
       sbind (slift (read tk w)) (fun d => heston_prices env kappa theta sigma_v rho v0 CIREuler d (getR w) t) g).
Proof.
  intros T num tk w. split; intros until m; intros E env t g.
  - unfold Bates_ctor, StockModel_ctor in E. unfold read. destruct (getStockData tk w) as [l| |] eqn:G; try discriminate.
    cbn [bind] in *. destruct (deref l w) as [d| |] eqn:D; try discriminate. cbn [bind] in E.
    destruct (_ || _ || _ || _)%bool; [discriminate|]. destruct (_ || _)%bool; [discriminate|].
    destruct vd; cbn [bind] in E; injection E as <-; unfold simulatePrices; cbn [mdStock mdKind]; rewrite D; reflexivity.
  - unfold Heston_ctor, StockModel_ctor in E. unfold read. destruct (getStockData tk w) as [l| |] eqn:G; try discriminate.
    cbn [bind] in *. destruct (deref l w) as [d| |] eqn:D; try discriminate. cbn [bind] in E.
    destruct (_ || _)%bool; [discriminate|]. destruct (_ || _)%bool; [discriminate|].
    cbn [bind] in E; injection E as <-; unfold simulatePrices; cbn [mdStock mdKind]; rewrite D; reflexivity.
Qed.
Print Assumptions C35_scheme_partial.

Example C35_ex : exists m, Bates_ctor "AAPL" w_ex 1%R 1%R 1%R 0%R 1%R 1%R 0%R 1%R (Some CIRMilstein) = Ok m /\
                 mdKind m = (MBates 1 1 1 0 1 1 0 1 CIRMilstein)%R.
Proof.
  exists (mkModel "AAPL" 0 (MBates 1 1 1 0 1 1 0 1 CIRMilstein)%R). split; [|reflexivity]. unfold Bates_ctor, StockModel_ctor. cbn. unfold n0, n1; cbn.
  rewrite !Rle_bool_false, !Rlt_bool_false by lra. reflexivity.
Qed.

(** ** C36.  In arithmetic with undefined operations nothing is undefined, and the steps
    are the full-truncation Euler and Milstein steps. *)
Theorem C36_steps_defined : forall (V dt kappa theta sigma_v z : R), (0 <= dt)%R ->
  @cir_update _ Rpartial CIREuler (Some V) (Some dt) (Some kappa) (Some theta) (Some sigma_v) (Some z) =
    Some (euler_step V dt kappa theta sigma_v z) /\
  @cir_update _ Rpartial CIRMilstein (Some V) (Some dt) (Some kappa) (Some theta) (Some sigma_v) (Some z) =
    Some (milstein_step V dt kappa theta sigma_v z).
Proof.
  intros V dt kappa theta s z D. rewrite !cir_defined by easy.
  destruct (cir_spec V dt kappa theta s z) as [-> ->]. now split.
Qed.
Print Assumptions C36_steps_defined.

Theorem C36_euler_from_zero : forall dt kappa theta sigma_v : R,
  cir_update CIREuler 0%R dt kappa theta sigma_v 0%R = (kappa * theta * dt)%R /\
  cir_update CIRMilstein 0%R dt kappa theta sigma_v 0%R = ((kappa * theta - sigma_v * sigma_v / 4) * dt)%R.
Proof.
  intros. destruct (cir_spec 0 dt kappa theta sigma_v 0) as [-> ->].
  unfold milstein_step, euler_step. rewrite Rmax_left by lra. rewrite Rmult_0_l, sqrt_0. lra.
Qed.
Print Assumptions C36_euler_from_zero.

(** The Feller-type condition does not keep the Milstein step nonnegative, and a zero
    draw from zero variance does not lead to kappa*theta*dt. *)
Theorem C36_milstein_refuted :
  (exists V dt kappa theta sigma_v z : R,
     (0 <= V /\ 0 < dt /\ 0 < kappa /\ 4 * kappa * theta >= sigma_v * sigma_v /\ kappa * dt <= 1)%R /\
     (cir_update CIRMilstein V dt kappa theta sigma_v z < 0)%R) /\
  (exists dt kappa theta sigma_v : R,
     cir_update CIRMilstein 0%R dt kappa theta sigma_v 0%R <> (kappa * theta * dt)%R).
Proof.
  split.
  - exists 4%R, 1%R, 1%R, 1%R, 1%R, (-4)%R. split; [lra|].
    rewrite (proj2 (cir_spec 4 1 1 1 1 (-4))). unfold milstein_step, euler_step. rewrite Rmax_left by lra.
    replace (4 * 1)%R with (2 * 2)%R by lra. rewrite sqrt_square by lra. lra.
  - exists 1%R, 1%R, 1%R, 1%R. rewrite (proj2 (C36_euler_from_zero 1 1 1 1)). lra.
Qed.
Print Assumptions C36_milstein_refuted.

(** What holds: nonnegative below the level theta - sigma_v^2/(4 kappa), whatever the
    step and the draw. *)
Theorem C36_milstein_nonneg_partial : forall V dt kappa theta sigma_v z : R,
  (0 <= V -> 0 <= dt -> 0 < kappa -> V <= theta - sigma_v * sigma_v / (4 * kappa) ->
   0 <= cir_update CIRMilstein V dt kappa theta sigma_v z)%R.
Proof.
  intros V dt kappa theta s z HV D K H. rewrite (proj2 (cir_spec V dt kappa theta s z)).
  apply milstein_nonneg; try easy.
  apply (Rmult_le_compat_l kappa) in H; [|lra].
  replace (kappa * (theta - s * s / (4 * kappa)))%R with (kappa * theta - s * s / 4)%R in H by (field; lra). easy.
Qed.
Print Assumptions C36_milstein_nonneg_partial.
Example C36_ex : (0 <= 3/4 /\ 3/4 <= 1 - 1 * 1 / (4 * 1))%R /\
  (cir_update CIRMilstein (-1)%R 1 2 3 5 7)%R = (-1 + 2 * (3 - 0) * 1 + 5 * sqrt (0 * 1) * 7 + 5*5*1/4*(7*7-1))%R.
Proof.
  split; [lra|]. rewrite (proj2 (cir_spec (-1) 1 2 3 5 7)). unfold milstein_step, euler_step.
  rewrite Rmax_right by lra. reflexivity.
Qed.

(** ** C37 *)
Definition one_signed_jump (p U up down : R) : R := if Rlt_bool U p then up else (- down)%R.

Theorem C37_kou_jump_refuted : exists (env : Env R) p g x,
  gQuasi g = None /\ fst (kou_jump env p (DUniform 0 1) (DExponential 2) (DExponential 2) 0 g)%R = Ok x /\
  exists U up down, (0 <= U < p)%R /\ (0 < up)%R /\ (0 < down)%R /\
    fst (draws env [DUniform 0 1; DExponential 2; DExponential 2]%R g) = [Ok U; Ok up; Ok down] /\
    (x < up)%R /\ x <> one_signed_jump p U up down.
Proof.
  exists (env_list [0; 1; 3]%R []), (1/2)%R, (Pseudo_ctor 1 7), (1 - 3)%R. split; [reflexivity|]. split.
  - unfold kou_jump, sbind. rewrite draw_list by easy. cbn. rewrite Rlt_bool_true by lra. cbn. f_equal. lra.
  - exists 0%R, 1%R, 3%R. repeat split; try lra. unfold one_signed_jump. rewrite Rlt_bool_true by lra. lra.
Qed.
Print Assumptions C37_kou_jump_refuted.

(** Exactly what one turn adds: the downward size always, the upward one with U < p. *)
Theorem C37_kou_jump_partial : forall (env : Env R) p (eta1 eta2 : R) js g, gQuasi g = None ->
  exists U up down,
    fst (draw env (DUniform n0 n1) g) = Ok U /\
    ((U < p)%R ->
       fst (draws env [DUniform n0 n1; DExponential eta1; DExponential eta2] g) = [Ok U; Ok up; Ok down] /\
       fst (kou_jump env p (DUniform n0 n1) (DExponential eta1) (DExponential eta2) js g) = Ok (js + up - down)%R) /\
    ((p <= U)%R ->
       fst (draws env [DUniform n0 n1; DExponential eta2] g) = [Ok U; Ok down] /\
       fst (kou_jump env p (DUniform n0 n1) (DExponential eta1) (DExponential eta2) js g) = Ok (js + one_signed_jump p U up down)%R).
Proof.
  intros env p eta1 eta2 js g Q.
  unfold kou_jump, sbind, draws, draw, sret. rewrite Q.
  cbn [std_object]. unfold with_hist; cbn. rewrite Q. cbn.
  set (U := e_real env (gEngine g) (EvDraw (SUniform n0 n1) :: gHist g)).
  destruct (Rlt_bool_spec U p) as [H|H].
  - eexists U, _, _. repeat split; intros; lra.
  - eexists U, 0%R, _. repeat split; intros; try lra.
    unfold one_signed_jump. rewrite Rlt_bool_false by easy. reflexivity.
Qed.
Print Assumptions C37_kou_jump_partial.

Example C37_ex : fst (draw (env_list [3/4; 5]%R []) (DUniform 0 1)%R (Pseudo_ctor 1 7)) = Ok (3/4)%R /\
  fst (kou_jump (env_list [3/4; 5]%R []) (1/2) (DUniform 0 1) (DExponential 2) (DExponential 4) 1 (Pseudo_ctor 1 7))%R = Ok (1 - 5)%R /\
  fst (kou_jump (env_list [1/4; 2; 5]%R []) (1/2) (DUniform 0 1) (DExponential 2) (DExponential 4) 1 (Pseudo_ctor 1 7))%R = Ok (1 + 2 - 5)%R.
Proof.
  split; [reflexivity|]. unfold kou_jump, sbind. rewrite !draw_list by easy. cbn.
  rewrite Rlt_bool_false by lra. rewrite Rlt_bool_true by lra. cbn. split; reflexivity.
Qed.

(** ** C39.  All gamma draws of a path come from gamma(dt/nu, scale 1/nu), one per step;
    their mean is dt/nu^2. *)
Theorem C39_gamma_draws : forall T (num : Num T) (env : Env T) m (w : Market T) nu theta omega t dim seed prices g',
  mdKind m = MVarianceGamma nu theta omega ->
  simulatePrices env m w t (Pseudo_ctor dim seed) = (Ok prices, g') ->
  filter is_draw (rev (gHist g')) =
    concat (repeat [EvDraw (SGamma (t / nofZ dim / nu)%num (n1 / nu)%num); EvDraw (SNormal n0 n1)] (Z.to_nat dim)).
Proof.
  intros T num env m w nu theta omega t dim seed prices g' K E.
  unfold simulatePrices in E. apply sbind_ok in E. destruct E as (d & g1 & E1 & E).
  unfold slift in E1. injection E1 as _ <-. rewrite K in E. cbn [kind_prices] in E.
  apply vg_history in E; [|reflexivity]. rewrite E. cbn [gDim Pseudo_ctor gHist]. unfold vg_steps.
  rewrite rev_app_distr. cbn [rev app filter is_draw].
  generalize (Z.to_nat dim) as n. induction n as [|n IH]; [reflexivity|].
  cbn [repeat concat]. rewrite rev_app_distr, filter_app, IH. cbn [rev app filter is_draw].
  generalize (EvDraw (SGamma (t / nofZ dim / nu)%num (n1 / nu)%num)) as x, (@EvDraw T (SNormal n0 n1)) as y.
  clear. intros x y. induction n as [|n IH]; [reflexivity|]. cbn [repeat concat app]. rewrite IH. reflexivity.
Qed.
Print Assumptions C39_gamma_draws.

Theorem C39_clock_mean_partial : forall nu dt : R, (0 < nu)%R -> (0 < dt)%R ->
  std_gamma_mean (dt / nu) (1 / nu) = (dt / (nu * nu))%R /\
  (std_gamma_mean (dt / nu) (1 / nu) = dt <-> nu = 1)%R.
Proof.
  intros nu dt N D. unfold std_gamma_mean.
  assert (E : (dt / nu * (1 / nu) = dt / (nu * nu))%R) by (field; lra). split; [exact E|].
  rewrite E. split; intros H.
  - assert (dt = dt * (nu * nu))%R. { rewrite <- H at 2. field. lra. }
    assert (nu * nu = 1)%R by (apply (Rmult_eq_reg_l dt); lra). nra.
  - subst. field.
Qed.
Print Assumptions C39_clock_mean_partial.

(** A VarianceGamma model built through the API, accepted, with a clock of mean 4 dt. *)
Theorem C39_clock_mean_refuted : exists (w : Market R) nu theta m (env : Env R) g' prices,
  VarianceGamma_ctor "AAPL" w nu theta = Ok m /\
  simulatePrices env m w 1%R (Pseudo_ctor 1 7) = (Ok prices, g') /\
  exists shape scale, In (EvDraw (SGamma shape scale)) (gHist g') /\ std_gamma_mean shape scale = (4 * (1 / IZR 1))%R.
Proof.
  exists w_ex, (1/2)%R, 0%R.
  destruct (VarianceGamma_ctor "AAPL" w_ex (1/2) 0)%R as [m| |] eqn:E.
  2,3: exfalso; unfold VarianceGamma_ctor, StockModel_ctor in E; cbn in E; unfold n0 in E; cbn in E;
    rewrite Rle_bool_false in E by lra; discriminate.
  assert (M : exists omega, m = mkModel "AAPL" 0 (MVarianceGamma (1/2) 0 omega)%R).
  { unfold VarianceGamma_ctor, StockModel_ctor in E; cbn in E; unfold n0 in E; cbn in E.
    rewrite Rle_bool_false in E by lra. injection E as <-. now eexists. }
  destruct M as [omega ->]. exists (mkModel "AAPL" 0 (MVarianceGamma (1/2) 0 omega)%R), (env_list [] []).
  pose proof (simulate_outcome (env_list [] []) (mkModel "AAPL" 0 (MVarianceGamma (1/2) 0 omega)%R)
    w_ex (mkStock 100 (2/10) None)%R 1%R (Pseudo_ctor 1 7) eq_refl eq_refl ltac:(cbn; unfold INT_MAX; lia)) as O.
  cbn [kind_dists mdKind forallb dist_ok] in O. unfold n0, n1 in O; cbn -[simulatePrices] in O.
  rewrite !Rle_bool_false in O by lra. destruct O as (prices & g' & O).
  exists g', prices. split; [reflexivity|]. split; [exact O|].
  eapply C39_gamma_draws in O; [|reflexivity].
  exists (1 / nofZ 1 / (1/2))%R, (1 / (1/2))%R. split.
  - apply in_rev. eapply (proj1 (filter_In is_draw _ _)). rewrite O. change (Z.to_nat 1) with 1%nat. now left.
  - unfold std_gamma_mean. cbn. lra.
Qed.
Print Assumptions C39_clock_mean_refuted.

(** ** C40.  Refuted: after addStock of a listed ticker the model keeps the old data. *)
Theorem C40_follows_market_refuted : exists (h1 h2 : list (op R)) m (env : Env R) t g m' p q,
  GBM_ctor "A" (run h1 MarketData_ctor) = Ok m /\
  GBM_ctor "A" (run (h1 ++ h2)%list MarketData_ctor) = Ok m' /\
  fst (simulatePrices env m (run (h1 ++ h2)%list MarketData_ctor) t g) = Ok [p] /\
  fst (simulatePrices env m' (run (h1 ++ h2)%list MarketData_ctor) t g) = Ok [q] /\ (p < q)%R.
Proof.
  exists [OAddStock "A" 100 (2/10) None]%R, [OAddStock "A" 200 (2/10) None]%R,
    (mkModel "A" 0 MGBM), (env_list [0%R] []), 1%R, (Pseudo_ctor 1 7), (mkModel "A" 1 MGBM).
  assert (A : forall x : R, (0 < x)%R -> StockData_ctor x (2/10)%R None = Ok (mkStock x (2/10)%R None)).
  { intros x X. unfold StockData_ctor, validate; cbn. unfold n0; cbn.
    rewrite Rle_bool_false, Rlt_bool_false by lra. reflexivity. }
  set (w := run ([OAddStock "A" 100%R (2/10)%R None] ++ [OAddStock "A" 200%R (2/10)%R None])%list MarketData_ctor).
  assert (W : w = mkMarket (mR w) [("A", 1%nat)] [] [mkStock 100 (2/10) None; mkStock 200 (2/10) None]%R []).
  { unfold w, run, step, addStock. cbn [fold_left app]. unfold step, addStock. rewrite !A by lra. reflexivity. }
  assert (D : forall l d, deref l w = Ok d ->
     fst (simulatePrices (env_list [0%R] []) (mkModel "A" l MGBM) w 1%R (Pseudo_ctor 1 7)) =
     Ok [S_ d * exp ((mR w - dividend d - sigma_ d * sigma_ d / 2) * (1 * (1 / IZR 1)) + sigma_ d * sqrt (1 / IZR 1) * (0 + 0))]%R).
  { intros l d D.
    destruct (draws_list [0%R] [] 1 (snd (new_dist DStdNormal (Pseudo_ctor 1 7))) 0) as [g' E].
    { unfold new_dist, Distr_ctor, n0, n1; cbn. now rewrite Rle_bool_false by lra. }
    { unfold new_dist, Distr_ctor, n0, n1; cbn. now rewrite Rle_bool_false by lra. }
    { cbn; lia. }
    rewrite (C33_gbm_closed_form (env_list [0%R] []) (mkModel "A" l MGBM) w d 1%R (Pseudo_ctor 1 7) [0%R] g');
      [reflexivity|reflexivity|exact D|cbn; unfold INT_MAX; lia|reflexivity|exact E]. }
  do 2 eexists. split; [|split; [|split; [|split]]].
  - unfold run, step, addStock. cbn [fold_left app]. unfold step, addStock. rewrite !A by lra. reflexivity.
  - fold w. rewrite W. reflexivity.
  - fold w. rewrite (D 0%nat (mkStock 100 (2/10) None)%R) by (now rewrite W). reflexivity.
  - fold w. rewrite (D 1%nat (mkStock 200 (2/10) None)%R) by (now rewrite W). reflexivity.
  - cbn [S_ sigma_ dividend c_]. match goal with |- (100 * ?e < 200 * ?e)%R => pose proof (exp_pos (mR w)) end.
    match goal with |- (100 * exp ?e < _)%R => pose proof (exp_pos e); lra end.
Qed.
Print Assumptions C40_follows_market_refuted.

(** What holds: as long as no addStock replaces the ticker, any model reads the current
    data and rate, whatever other calls were made. *)
Theorem C40_follows_market_partial : forall T (num : Num T) (h1 h2 : list (op T)) tk kind m,
  StockModel_ctor tk (run h1 MarketData_ctor) kind = Ok m ->
  ~ (exists p s c, In (OAddStock tk p s c) h2 /\ accepts p s c = true) ->
  forall (env : Env T) t g, let w := run (h1 ++ h2)%list MarketData_ctor in
  exists d, read tk w = Ok d /\
    simulatePrices env m w t g = kind_prices env (mdKind m) d (rate_after (lit 5 2) (h1 ++ h2)%list) t g.
Proof.
  intros T num h1 h2 tk kind m E N env t g w. unfold StockModel_ctor in E.
  destruct (getStockData tk (run h1 MarketData_ctor)) as [l| |] eqn:G; try discriminate. cbn [bind] in E.
  destruct (deref l (run h1 MarketData_ctor)) as [d0| |] eqn:D0; try discriminate. cbn [bind] in E.
  destruct (kind d0) as [k| |]; try discriminate. cbn [bind] in E. injection E as <-. cbn [mdStock mdKind].
  pose proof (handle_live_view h1 h2 tk l G N) as L. fold w in L.
  destruct (market_handle h1 h2 tk l G) as (d1 & _ & _ & D1). fold w in D1.
  eexists. split; [rewrite <- L; exact D1|]. unfold simulatePrices, sbind, slift. cbn [mdStock mdKind]. rewrite D1.
  replace (mR w) with (rate_after (lit 5 2 : T) (h1 ++ h2)%list); [reflexivity|].
  unfold w. symmetry. apply market_rate.
Qed.
Print Assumptions C40_follows_market_partial.

Example C40_ex : let h1 := [OAddStock "A" (b64_ofZ 100) (lit 2 1) None] in let h2 := [OPrice "A" (b64_ofZ 90); OSetR (lit 3 1)] in
  isOk (StockModel_ctor "A" (run h1 MarketData_ctor) (fun _ => Ok (@MGBM b64))) = true /\
  read "A" (run (h1 ++ h2) MarketData_ctor) = Ok (mkStock (b64_ofZ 90) (lit 2 1) None) /\ rate_after (lit 5 2) (h1 ++ h2)%list = (lit 3 1) /\
  ~ (exists p s c, In (OAddStock "A" p s c) h2 /\ accepts p s c = true).
Proof.
  cbv zeta. repeat split. intros (p & s & c & [H|[H|[]]] & _); discriminate H.
Qed.

(** Also refuted without any addStock: variance_gamma_model.cpp:21-22 computes omega from the volatility
    the stock has at construction; after updateStockSigma the model disagrees with one built anew. *)
Theorem C40_vg_refuted : exists (h : list (op R)) s m m' (env : Env R) t g p q,
  VarianceGamma_ctor "A" (run h MarketData_ctor) (1/2)%R 0%R = Ok m /\
  let w := run (h ++ [OSigma "A" s])%list MarketData_ctor in
  VarianceGamma_ctor "A" w (1/2)%R 0%R = Ok m' /\
  fst (simulatePrices env m w t g) = Ok [p] /\ fst (simulatePrices env m' w t g) = Ok [q] /\ (q < p)%R.
Proof.
  set (h := [OAddStock "A" 100 (1/5) None]%R).
  assert (A : forall x : R, (0 <= x)%R -> validate (mkStock 100%R x None) = Ok tt).
  { intros x X. unfold validate; cbn. unfold n0; cbn. rewrite Rle_bool_false, Rlt_bool_false by lra. reflexivity. }
  assert (W0 : exists r, run h MarketData_ctor = mkMarket r [("A", 0%nat)] [] [mkStock 100 (1/5) None]%R []).
  { eexists. unfold h. cbn [run]. unfold step, addStock, StockData_ctor. rewrite A by lra. reflexivity. }
  assert (W1 : exists r, run (h ++ [OSigma "A" 1%R])%list MarketData_ctor = mkMarket r [("A", 0%nat)] [] [mkStock 100 1 None]%R []).
  { destruct W0 as (r0 & W0). exists r0. rewrite run_app, W0.
    cbn [run]. unfold step, updateStockSigma, updateStock. cbn [dget mMap mHeap String.eqb Ascii.eqb Bool.eqb nth_error].
    cbn -[validate]. rewrite A by lra. reflexivity. }
  destruct W0 as (r0 & W0). destruct W1 as (r & W1).
  assert (P : forall om, fst (simulatePrices (env_list [] []) (mkModel "A" 0 (MVarianceGamma (1/2) 0 om))%R
      (mkMarket r [("A", 0%nat)] [] [mkStock 100 1 None]%R []) 1%R (Pseudo_ctor 1 7)) =
      Ok [(100 * exp ((r - 0 + om) * (1 / 1) + (0 * 0 + 1 * sqrt 0 * 0)))%R]).
  { intros om. unfold simulatePrices, sbind, slift. cbn [mdStock mdKind deref mHeap nth_error mR kind_prices].
    unfold vg_prices, sbind, new_dist, Distr_ctor, n0, n1. cbn.
    repeat (rewrite Rle_bool_false by lra; cbn). reflexivity. }
  exists h, 1%R. do 2 eexists. exists (env_list [] []), 1%R, (Pseudo_ctor 1 7). do 2 eexists.
  rewrite W0. split.
  { unfold VarianceGamma_ctor, StockModel_ctor. cbn [getStockData dget mMap String.eqb Ascii.eqb Bool.eqb bind deref mHeap nth_error].
    cbn [Rnum nleb n0 nofZ]. unfold n0; cbn [Rnum nleb nofZ]. rewrite Rle_bool_false by lra. reflexivity. }
  cbv zeta. rewrite W1. split.
  { unfold VarianceGamma_ctor, StockModel_ctor. cbn [getStockData dget mMap String.eqb Ascii.eqb Bool.eqb bind deref mHeap nth_error].
    unfold n0; cbn [Rnum nleb nofZ]. rewrite Rle_bool_false by lra. reflexivity. }
  rewrite !P. split; [reflexivity|split; [reflexivity|]].
  apply Rmult_lt_compat_l; [lra|]. apply exp_increasing.
  unfold nhalf, lit, n1. cbn. apply Rplus_lt_compat_r.
  match goal with |- ((_ + _ * ln ?a) * _ < (_ + _ * ln ?b) * _)%R => assert (L : (ln a < ln b)%R) by (apply ln_increasing; lra); lra end.
Qed.
Print Assumptions C40_vg_refuted.
