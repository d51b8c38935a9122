(** Property C98: the bridge of the American pricer draws GBM paths. *)
From Coq Require Import String List ZArith Reals Bool Lra Lia.
From Coquelicot Require Import Coquelicot.
From Verif Require Import M_Num M_Outcome M_Dict M_Stock M_Market M_Random M_Model
  S_Model S_Prob S_Expect S_Bridge L_Gauss L_Martingale L_Expect L_Sampler L_Growth L_Normal L_Lognormal L_Bridge P_Growth.
Import ListNotations.
Local Open Scope R_scope.

Lemma r_back : forall n m w d x u v, mdKind m = MGBM -> deref (mdStock m) w = Ok d ->
  renders n (fun env => simulatePriceBackward env m w x u v) (pback d x u v).
Proof.
  intros n m w d x u v K D. unfold simulatePriceBackward. rewrite K, D.
  eapply r_dim; [intros env g Q G; reflexivity|]. unfold gbm_backward, pback.
  apply (r_new_bind n DStdNormal). intros _. refine (r_bind n _ _ _ _ _ _); [now apply r_draw|]. intros z. apply r_ret.
Qed.
Lemma r_backwards : forall n m w d t k x later, mdKind m = MGBM -> deref (mdStock m) w = Ok d ->
  renders n (fun env => backwards env m w (t / IZR n) k x later) (pbackwards d t n k x later).
Proof.
  intros n m w d t k. induction k as [|k IH]; intros x later K D; [apply r_ret|].
  cbn [backwards pbackwards]. refine (r_bind n _ _ _ _ _ _); [now apply r_back|]. intros y. now apply IH.
Qed.

Ltac assoc := match goal with |- is_E (pbind (pbind ?p ?k) ?l) ?f ?m => refine (proj1 (E_assoc p k l f m) _) end.

(** For every choice of exponents, the product of powers of the prices of a path drawn
    backwards has the same mean as for a path drawn forwards: the moment of a geometric
    Brownian motion at these dates. *)
Theorem C98_bridge_moments : forall m w d t g (a : nat -> R),
  mdKind m = MGBM -> deref (mdStock m) w = Ok d -> 0 < getPrice d -> 0 < t ->
  gQuasi g = None -> (1 <= getDim g <= INT_MAX)%Z ->
  let moment := brownian_moment (getPrice d) (getR w - dividend d - getSigma d * getSigma d / 2) (getSigma d)
                  (date t (getDim g)) a (Z.to_nat (getDim g)) in
  is_mean (fun env => simulatePrices env m w t) g (powers a 0) moment /\
  is_mean (fun env => bridge_path env m w t) g (powers a 0) moment.
Proof.
  intros m w d t g a K D S0 T Q (N1 & NM) moment. set (n := getDim g) in *.
  assert (NZ : 0 < IZR n) by (apply IZR_lt; lia).
  assert (DT : 0 < t / IZR n) by (apply Rdiv_lt_0_compat; easy).
  set (N := Z.to_nat n) in *. destruct N as [|k] eqn:EN; [lia|].
  set (dt := t / IZR n) in *. set (mu := (getR w - dividend d - getSigma d * getSigma d / 2)) in *. set (b := getSigma d * sqrt dt).
  assert (BB : b * b = getSigma d * getSigma d * dt).
  { unfold b. replace (getSigma d * sqrt dt * (getSigma d * sqrt dt)) with (getSigma d * getSigma d * (sqrt dt * sqrt dt)) by ring.
    rewrite sqrt_sqrt by lra. reflexivity. }
  assert (M : moment = exp (sum_to (S k) a * ln (getPrice d) + mu * dt * sum_to (S k) (fun i => a i * INR (S i)) + b * b / 2 * vwalk a (S k))).
  { unfold moment, brownian_moment. f_equal. f_equal.
    - rewrite (sum_ext (S k) _ (fun i => ln (getPrice d) * a i + mu * dt * (a i * INR (S i)))) by (intros; unfold date; fold dt; ring).
      rewrite sum_plus, !sum_scal. ring.
    - rewrite <- vwalk_cov, BB.
      rewrite (sum_ext (S k) (fun i => sum_to (S k) (fun j => a i * a j * Rmin (date t n i) (date t n j)))
                (fun i => dt * sum_to (S k) (fun j => a i * a j * Rmin (INR (S i)) (INR (S j))))).
      + rewrite sum_scal. field.
      + intros i _. rewrite <- sum_scal. apply sum_ext. intros j _. unfold date. fold dt.
        rewrite <- Rmult_min_distr_r by lra. ring. }
  rewrite M. clear M moment. split.
  - apply (mean_iff n _ (path_sampler m w t n)); [apply r_simulate|easy|easy|].
    unfold path_sampler. rewrite D. cbn [pbind]. rewrite K. cbn [kind_sampler]. unfold gbm_sampler. apply E_new; [apply ctor_std|].
    unfold pfor_int. destruct (Z.leb_spec n INT_MAX); [|lia]. apply (E_map _ snd). fold N. rewrite EN.
    pose proof (forward_moment a d (mR w) t n (S k) (getPrice d) [] S0) as E. cbn [length powers] in E.
    rewrite wsum_all, dsum_all, qsum_all, Rmult_1_l in E. exact E.
  - apply (mean_iff n _ (pbind (pbind (path_sampler m w t n) (fun l => Done (vback l))) (fun x => pbackwards d t n k x []))); [|easy|easy|].
    { eapply r_dim; [intros env g' Q' G'; unfold bridge_path, getDim; rewrite G'; reflexivity|].
      refine (r_bind n _ _ _ _ _ _); [refine (r_bind n _ _ _ _ _ _); [apply r_simulate|intros l; apply r_lift]|].
      intros x. fold N. rewrite EN. cbn [Nat.sub]. rewrite Nat.sub_0_r. now apply r_backwards. }
    unfold path_sampler. rewrite D. cbn [pbind]. rewrite K. cbn [kind_sampler]. unfold gbm_sampler.
    do 2 assoc. apply E_new; [apply ctor_std|]. assoc.
    unfold pfor_int. destruct (Z.leb_spec n INT_MAX); [|lia]. fold N. rewrite EN.
    pose proof (end_moment d (mR w) t n
      (fun st => pbind (Done (Ok (snd st))) (fun x => pbind (Done (vback x)) (fun x0 => pbackwards d t n k x0 [])))
      (powers a 0) (wback a k) ((sum_to (S k) a - wback a k) * ln (getPrice d) + b * b / 2 * qback a k)) as E.
    match type of E with ?H -> _ => assert (B : H) end.
    { intros S l HS. cbn [pbind snd]. unfold vback. rewrite rev_unit. cbn [pbind].
      pose proof (back_moment a d t n DT S0 k S [] HS) as BM. cbn [powers] in BM. rewrite Rmult_1_r in BM.
      fold dt in BM. fold b in BM.
      match goal with |- is_E _ _ ?m => match type of BM with is_E _ _ ?m' => replace m with m'; [exact BM|] end end. f_equal. ring. }
    specialize (E B k (getPrice d) [] S0). fold dt in E. fold b in E. change (mR w) with (getR w) in E. fold mu in E.
    match goal with |- is_E _ _ ?m => match type of E with is_E _ _ ?m' => replace m with m'; [exact E|] end end.
    f_equal. rewrite <- wback_all, <- qback_all. field.
Qed.
Print Assumptions C98_bridge_moments.

(** Two dates in one year, r = 0.05, sigma = 0.2: the mean of the product of the prices. *)
Definition bridge_market : Market R := mkMarket (5/100) [("A"%string, 0%nat)] [] [mkStock 100 (2/10) None] [].
Example C98_ex : is_mean (fun env => bridge_path env (mkModel "A" 0 MGBM) bridge_market 1) (Pseudo_ctor1 2 7) (powers (fun _ => 1) 0)
  (exp (2 * ln 100 + (5/100 - 2/10 * (2/10) / 2) * (3/2) + 2/10 * (2/10) / 2 * (5/2))).
Proof.
  destruct (C98_bridge_moments (mkModel "A" 0 MGBM) bridge_market (mkStock 100 (2/10) None) 1 (Pseudo_ctor1 2 7) (fun _ => 1)
    eq_refl eq_refl ltac:(cbn; lra) ltac:(lra) eq_refl ltac:(unfold INT_MAX; cbn; lia)) as [_ E].
  match goal with |- is_mean _ _ _ ?m => match type of E with is_mean _ _ _ ?m' => replace m with m'; [exact E|] end end.
  unfold brownian_moment. change (Z.to_nat (getDim (Pseudo_ctor1 2 7))) with 2%nat. cbn [sum_to].
  unfold date. change (getDim (Pseudo_ctor1 2 7)) with 2%Z. cbn [INR]. f_equal.
  repeat match goal with |- context [Rmin ?x ?y] => first [rewrite (Rmin_left x y) by lra | rewrite (Rmin_right x y) by lra] end.
  cbn. lra.
Qed.
