(** One-step paths of the jump models with the draws made explicit. *)
From Coq Require Import String List ZArith Reals Bool Lra Lia.
From Flocq Require Import Core.
From Verif Require Import M_Num M_Outcome M_Dict M_Stock M_Market M_Random M_Model
  S_Market S_Random S_Model S_Prob L_Model L_Gauss.
Import ListNotations.
Local Open Scope R_scope.

Lemma sbind_eq : forall {T A B} (m : SM T A) (f : A -> SM T B) h a h1, m h = (Ok a, h1) -> sbind m f h = f a h1.
Proof. intros T A B m f h a h1 E. unfold sbind. now rewrite E. Qed.

Lemma nhalf_R : (nhalf : R) = 1 / 2.
Proof. unfold nhalf, lit; cbn; lra. Qed.

Lemma new_normal : forall g : Gen R, new_dist DStdNormal g = (Ok DStdNormal, with_hist g (EvNew (SNormal 0 1) :: gHist g)).
Proof. intros g. unfold new_dist, Distr_ctor, n0, n1; cbn. rewrite Rle_bool_false by lra. reflexivity. Qed.
Lemma new_poisson : forall l (g : Gen R), 0 < l ->
  new_dist (DPoisson l) g = (Ok (DPoisson l), with_hist g (EvNew (SPoisson l) :: gHist g)).
Proof. intros l g L. unfold new_dist, Distr_ctor, n0, n1; cbn. rewrite Rle_bool_false by lra. reflexivity. Qed.
Lemma new_jump : forall mu s (g : Gen R), 0 < s ->
  new_dist (DNormal mu s) g = (Ok (DNormal mu s), with_hist g (EvNew (SNormal mu s) :: gHist g)).
Proof. intros l s g L. unfold new_dist, Distr_ctor, n0, n1; cbn. rewrite Rle_bool_false by lra. reflexivity. Qed.

(** A loop that draws once per turn consumes consecutive elements of the list. *)
Lemma siter_list : forall (f : R -> R -> R) zs ns d n i s g k, gQuasi g = None -> (forall l, d <> DPoisson l) ->
  ndraws (gHist g) = k -> (k + n <= length zs)%nat ->
  exists g', siter n i (fun _ s => sbind (draw (env_list zs ns) d) (fun j => sret (f s j))) s g =
    (Ok (fold_left f (firstn n (skipn k zs)) s), g').
Proof.
  intros f zs ns d. induction n as [|n IH]; intros i s g k Q N K L.
  - exists g. reflexivity.
  - cbn [siter]. rewrite (skipn_nth_cons zs 0 k) by lia. cbn [firstn fold_left].
    edestruct IH as [g' E]; [| | | |exists g'; erewrite sbind_eq; [exact E|erewrite sbind_eq by (now apply draw_list); rewrite K; reflexivity]].
    + exact Q.
    + exact N.
    + unfold ndraws in *; cbn. now f_equal.
    + lia.
Qed.

Lemma siter_list' : forall (f : R -> R -> R) zs ns d n i s g k, gQuasi g = None -> (forall l, d <> DPoisson l) ->
  ndraws (gHist g) = k -> (k + n <= length zs)%nat ->
  siter n i (fun _ s => sbind (draw (env_list zs ns) d) (fun j => sret (f s j))) s g =
    (Ok (fold_left f (firstn n (skipn k zs)) s),
     snd (siter n i (fun _ s => sbind (draw (env_list zs ns) d) (fun j => sret (f s j))) s g)).
Proof.
  intros f zs ns d n i s g k Q N K L. destruct (siter_list f zs ns d n i s g k Q N K L) as [g' E].
  rewrite E. reflexivity.
Qed.

Lemma fold_left_sum : forall l s, fold_left (fun a b : R => a + b) l s = s + Rsum l.
Proof. induction l as [|x l IH]; intros s; cbn; [lra|]. rewrite IH. cbn. unfold Rsum. lra. Qed.
Lemma fold_left_exp : forall l s, fold_left (fun a b : R => a * exp b) l s = s * exp (Rsum l).
Proof.
  induction l as [|x l IH]; intros s; cbn; [rewrite exp_0; lra|]. rewrite IH. cbn. fold (Rsum l). rewrite exp_plus. ring.
Qed.

Ltac onestep := unfold sfor_int, getDim; cbn [gDim Pseudo_ctor]; change (Z.leb 1 INT_MAX) with true;
  cbv iota; change (Z.to_nat 1) with 1%nat; cbn [siter].

Lemma gbm_path : forall m w d t n seed zs, mdKind m = MGBM -> deref (mdStock m) w = Ok d ->
  length zs = n -> (Z.of_nat n <= INT_MAX)%Z ->
  fst (simulatePrices (env_list zs []) m w t (Pseudo_ctor (Z.of_nat n) seed)) =
  Ok (gbm_solution (S_ d) (mR w) (dividend d) (sigma_ d) (t / INR n) zs).
Proof.
  intros m w d t n seed zs K D L N. unfold simulatePrices, sbind, slift. rewrite D, K. cbn [kind_prices].
  destruct (draws_list zs [] (length zs) (snd (new_dist DStdNormal (Pseudo_ctor (Z.of_nat n) seed))) 0) as [g' E].
  - now rewrite new_normal.
  - now rewrite new_normal.
  - lia.
  - cbn [skipn] in E. rewrite firstn_all in E.
    rewrite (gbm_closed (env_list zs []) d (mR w) t (Pseudo_ctor (Z.of_nat n) seed) zs g'); cbn [gDim Pseudo_ctor].
    + cbn [fst]. now rewrite <- INR_IZR_INZ.
    + lia.
    + rewrite Nat2Z.id. exact L.
    + exact E.
Qed.

Lemma merton_path : forall lambda muJ sigmaJ m w d t seed z n js,
  mdKind m = MMerton lambda muJ sigmaJ -> deref (mdStock m) w = Ok d -> 0 < lambda * t -> 0 < sigmaJ ->
  length js = n ->
  fst (simulatePrices (env_list (z :: 0 :: js) [0%Z; Z.of_nat n]) m w t (Pseudo_ctor 1 seed)) =
  Ok [S_ d * exp ((mR w - dividend d - sigma_ d * sigma_ d / 2) * t + sigma_ d * sqrt t * z + Rsum js)].
Proof.
  intros lambda muJ sigmaJ m w d t seed z n js K D P1 P2 L. unfold simulatePrices. erewrite sbind_eq by (unfold slift; now rewrite D).
  rewrite K. cbn [kind_prices]. unfold merton_prices. cbv zeta.
  assert (T1 : (t / nofZ (getDim (@Pseudo_ctor R 1 seed)))%num = t) by (cbn; field). rewrite T1.
  erewrite sbind_eq by apply new_normal.
  erewrite sbind_eq by (now apply new_poisson).
  erewrite sbind_eq by (now apply new_jump).
  onestep.
  erewrite sbind_eq.
  2:{ erewrite sbind_eq; [reflexivity|]. 
      erewrite sbind_eq by (apply draw_list; easy).
      erewrite sbind_eq by (apply poisson_list; easy).
      cbn [gHist with_hist Pseudo_ctor ndraws filter is_draw length std_object nth].
      unfold ndraws. cbn [filter is_draw length nth]. rewrite Nat2Z.id.
      erewrite sbind_eq by (apply (siter_list' (fun a b => a + b) _ _ _ _ _ _ _ 2); [reflexivity|easy|reflexivity|cbn; lia]).
      reflexivity. }
  cbn [fst snd sret app]. do 2 f_equal. cbn [skipn]. rewrite <- L, firstn_all, fold_left_sum.
  rewrite nhalf_R. unfold getPrice, getSigma. cbn. fold (dividend d). unfold coupon, getCoupon. fold (dividend d).
  f_equal. f_equal. change (n0 : R) with 0. unfold dividend. lra.
Qed.

Lemma heston_path : forall kappa theta sigma_v rho v0 disc m w d t seed z1 z2,
  mdKind m = MHeston kappa theta sigma_v rho v0 disc -> deref (mdStock m) w = Ok d ->
  fst (simulatePrices (env_list [z1; z2] []) m w t (Pseudo_ctor 1 seed)) =
  Ok [S_ d * exp ((mR w - dividend d - Rmax v0 0 / 2) * t + sqrt (Rmax v0 0 * t) * (rho * z1 + sqrt (1 - rho * rho) * z2))].
Proof.
  intros kappa theta sigma_v rho v0 disc m w d t seed z1 z2 K D. unfold simulatePrices. erewrite sbind_eq by (unfold slift; now rewrite D).
  rewrite K. cbn [kind_prices]. unfold heston_prices. cbv zeta.
  assert (T1 : (t / nofZ (getDim (@Pseudo_ctor R 1 seed)))%num = t) by (cbn; field). rewrite T1.
  erewrite sbind_eq by apply new_normal.
  onestep.
  erewrite sbind_eq.
  2:{ erewrite sbind_eq; [reflexivity|].
      erewrite sbind_eq by (apply draw_list; easy).
      erewrite sbind_eq by (apply draw_list; easy).
      unfold ndraws. cbn [gHist with_hist Pseudo_ctor ndraws filter is_draw length std_object nth].
      reflexivity. }
  cbn [fst snd sret app]. do 2 f_equal. rewrite nhalf_R, !nmax_R. unfold getPrice. cbn. unfold coupon, getCoupon.
  change (n0 : R) with 0. change (n1 : R) with 1. f_equal. f_equal. unfold dividend. lra.
Qed.

Lemma bates_path : forall kappa theta sigma_v rho v0 lambda muJ sigmaJ disc m w d t seed z1 z2 n js,
  mdKind m = MBates kappa theta sigma_v rho v0 lambda muJ sigmaJ disc -> deref (mdStock m) w = Ok d ->
  0 < lambda * t -> 0 < sigmaJ -> length js = n ->
  fst (simulatePrices (env_list (z1 :: z2 :: 0 :: js) [0%Z; 0%Z; Z.of_nat n]) m w t (Pseudo_ctor 1 seed)) =
  Ok [S_ d * exp ((mR w - dividend d - Rmax v0 0 / 2) * t + sqrt (Rmax v0 0 * t) * (rho * z1 + sqrt (1 - rho * rho) * z2)
        + Rsum js)].
Proof.
  intros kappa theta sigma_v rho v0 lambda muJ sigmaJ disc m w d t seed z1 z2 n js K D P1 P2 L.
  unfold simulatePrices. erewrite sbind_eq by (unfold slift; now rewrite D).
  rewrite K. cbn [kind_prices]. unfold bates_prices. cbv zeta.
  assert (T1 : (t / nofZ (getDim (@Pseudo_ctor R 1 seed)))%num = t) by (cbn; field). rewrite T1.
  erewrite sbind_eq by apply new_normal.
  erewrite sbind_eq by (now apply new_poisson).
  erewrite sbind_eq by (now apply new_jump).
  onestep.
  erewrite sbind_eq.
  2:{ erewrite sbind_eq; [reflexivity|].
      erewrite sbind_eq by (apply draw_list; easy).
      erewrite sbind_eq by (apply draw_list; easy).
      erewrite sbind_eq by (apply poisson_list; easy).
      unfold ndraws. cbn [gHist with_hist Pseudo_ctor ndraws filter is_draw length std_object nth].
      rewrite Nat2Z.id.
      erewrite sbind_eq by (apply (siter_list' (fun a b => a * exp b) _ _ _ _ _ _ _ 3); [reflexivity|easy|reflexivity|cbn; lia]).
      reflexivity. }
  cbn [fst snd sret app]. do 2 f_equal. cbn [skipn]. rewrite <- L, firstn_all, fold_left_exp.
  rewrite nhalf_R, !nmax_R. unfold getPrice. cbn. unfold coupon, getCoupon.
  change (n0 : R) with 0. change (n1 : R) with 1. rewrite (exp_plus _ (Rsum js)), <- Rmult_assoc.
  f_equal. f_equal. f_equal. unfold dividend. lra.
Qed.

Lemma Rsum_map_fold : forall mu s l, Rsum (map (fun z => mu + s * z) l) = fold_right (fun z acc => mu + s * z + acc) 0 l.
Proof. induction l as [|x l IH]; [reflexivity|]. cbn. rewrite <- IH. reflexivity. Qed.
