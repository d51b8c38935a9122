(** The stock models as samplers. *)
From Coq Require Import String List ZArith Reals Bool Lra Lia.
From Coquelicot Require Import Coquelicot.
From Flocq Require Import Core.
From Verif Require Import M_Num M_Outcome M_Dict M_Stock M_Market M_Random M_Model
  S_Market S_Model S_Prob S_Expect L_Gauss L_Expect.
Import ListNotations.
Local Open Scope R_scope.

Lemma r_assoc : forall {A B C} n (c : Env R -> SM R C) (p : sampler A) (k : A -> sampler B) (l : B -> sampler C),
  renders n c (pbind p (fun a => pbind (k a) l)) -> renders n c (pbind (pbind p k) l).
Proof.
  intros A B C n c p k l [W H]. split.
  - clear H. induction p as [[a|e|]|s p IH|s p IH|s p IH]; cbn in *; auto; destruct W as [S W]; split; auto.
  - intros env g Q D. rewrite (H env g Q D). rewrite !follow_bind. unfold sbind. rewrite follow_bind. unfold sbind.
    destruct (follow env p g) as [[a|e|] g']; try reflexivity. rewrite follow_bind. reflexivity.
Qed.


Lemma r_dim : forall {A} n (c c' : Env R -> SM R A) p,
  (forall env g, gQuasi g = None -> gDim g = n -> c env g = c' env g) -> renders n c' p -> renders n c p.
Proof. intros A n c c' p E [W H]. split; [easy|]. intros env g Q D. rewrite E by easy. now apply H. Qed.

Lemma ctor_same : forall (d x : Distr R), Distr_ctor d = Ok x -> Distr_ctor d = Ok d.
Proof.
  intros d x H. destruct d; cbn [Distr_ctor] in *;
    match goal with |- (if ?b then _ else _) = _ => destruct b; [discriminate H|reflexivity] end.
Qed.
Lemma ctor_pos : forall a, (@nleb R Rnum a n0) = false -> 0 < a.
Proof. intros a H. cbn in H. unfold n0 in H; cbn in H. revert H. case Rle_bool_spec; [discriminate|easy]. Qed.
Lemma exp_ctor : forall l : R, Distr_ctor (DExponential l) = Ok (DExponential l) -> 0 < l.
Proof. intros l H. cbn [Distr_ctor] in H. destruct (nleb l n0) eqn:E; [discriminate|]. now apply ctor_pos. Qed.
Lemma poisson_ctor : forall l : R, Distr_ctor (DPoisson l) = Ok (DPoisson l) -> 0 < l.
Proof. intros l H. cbn [Distr_ctor] in H. destruct (nleb l n0) eqn:E; [discriminate|]. now apply ctor_pos. Qed.

Lemma r_new_bind : forall {A} n d (k : Env R -> Distr R -> SM R A) q,
  (Distr_ctor d = Ok d -> renders n (fun env => k env d) q) ->
  renders n (fun env => sbind (new_dist d) (k env)) (pbind (pnew d) (fun _ => q)).
Proof.
  intros A n d k q H. unfold pnew, new_dist. destruct (Distr_ctor d) as [x|e|] eqn:E.
  - destruct (H (eq_trans (eq_sym E) (ctor_same _ _ E))) as [W H']. split; [exact W|]. intros env g Q D. unfold sbind. cbn. now rewrite H'.
  - split; [easy|]. intros env g Q D. reflexivity.
  - split; [easy|]. intros env g Q D. reflexivity.
Qed.

(** One step of a model, state to state, recorded in the list of prices. *)
Definition record {X} (price : X -> R) (step : X -> sampler X) (st : X * list R) : sampler (X * list R) :=
  pbind (step (fst st)) (fun x => Done (Ok (x, snd st ++ [price x]))).

Definition pdraw (s : StdDist R) : sampler R := Sample s (fun x => Done (Ok x)).
Definition pcount (l : R) : sampler Z := Count l (fun x => Done (Ok x)).

Local Notation half := (@nhalf R Rnum).

Definition npos (v : R) : R := @nmax R Rnum v n0.

Section Models.
Variables (d : StockData R) (r t : R) (n : Z).
Let dt := t / IZR n.
Let c := coupon d.
Let sigma := getSigma d.

Definition gbm_step (S : R) : sampler R :=
  pbind (pdraw (SNormal 0 1)) (fun z => Done (Ok (S * exp ((r - c - half * sigma * sigma) * dt + sigma * sqrt dt * z)))).
Definition gbm_sampler : sampler (list R) :=
  pbind (pnew DStdNormal) (fun _ =>
  pbind (pfor_int n (record (fun S => S) gbm_step) (getPrice d, [])) (fun st => Done (Ok (snd st)))).

Lemma r_gbm : renders n (fun env => gbm_prices env d r t) gbm_sampler.
Proof.
  eapply r_dim; [intros env g Q D; unfold gbm_prices, getDim; rewrite D; reflexivity|].
  apply (r_new_bind n DStdNormal). intros _. refine (r_bind n _ _ _ _ _ _); [|intros a; apply r_ret].
  apply r_for. intros i [S prices]. apply r_assoc. refine (r_bind n _ _ _ _ _ _); [now apply r_draw|]. intros z. apply r_ret.
Qed.

Section Heston.
Variables (kappa theta sigma_v rho v0 : R) (disc : CIRDisc).
Definition heston_step (x : R * R) : sampler (R * R) :=
  pbind (pdraw (SNormal 0 1)) (fun z1 =>
  pbind (pdraw (SNormal 0 1)) (fun z2 =>
  Done (Ok (fst x * exp ((r - c - half * npos (snd x)) * dt + sqrt (npos (snd x) * dt) * (rho * z1 + sqrt (1 - rho * rho) * z2)),
            cir_update disc (snd x) dt kappa theta sigma_v z1)))).
Definition heston_sampler : sampler (list R) :=
  pbind (pnew DStdNormal) (fun _ =>
  pbind (pfor_int n (record fst heston_step) (getPrice d, v0, [])) (fun st => Done (Ok (snd st)))).

Lemma r_heston : renders n (fun env => heston_prices env kappa theta sigma_v rho v0 disc d r t) heston_sampler.
Proof.
  eapply r_dim; [intros env g Q D; unfold heston_prices, getDim; rewrite D; reflexivity|].
  apply (r_new_bind n DStdNormal). intros _. refine (r_bind n _ _ _ _ _ _); [|intros a; apply r_ret].
  apply r_for. intros i [[S V] prices]. apply r_assoc. refine (r_bind n _ _ _ _ _ _); [now apply r_draw|]. intros z1.
  apply r_assoc. refine (r_bind n _ _ _ _ _ _); [now apply r_draw|]. intros z2.
  apply r_ret.
Qed.
End Heston.

Section Jumps.
Variables (lambda muJ sigmaJ : R).

Definition merton_step (S : R) : sampler R :=
  pbind (pdraw (SNormal 0 1)) (fun z =>
  pbind (pcount (lambda * dt)) (fun k =>
  pbind (piter (Z.to_nat k) (fun jumpSize => pbind (pdraw (SNormal muJ sigmaJ)) (fun j => Done (Ok (jumpSize + j)))) 0) (fun jumpSize =>
  Done (Ok (S * exp ((r - c - half * sigma * sigma) * dt + sigma * sqrt dt * z + jumpSize)))))).
Definition merton_sampler : sampler (list R) :=
  pbind (pnew DStdNormal) (fun _ => pbind (pnew (DPoisson (lambda * dt))) (fun _ => pbind (pnew (DNormal muJ sigmaJ)) (fun _ =>
  pbind (pfor_int n (record (fun S => S) merton_step) (getPrice d, [])) (fun st => Done (Ok (snd st)))))).

Lemma r_merton : renders n (fun env => merton_prices env lambda muJ sigmaJ d r t) merton_sampler.
Proof.
  eapply r_dim; [intros env g Q D; unfold merton_prices, getDim; rewrite D; reflexivity|].
  apply (r_new_bind n DStdNormal). intros _. apply (r_new_bind n (DPoisson _)). intros PO. apply (r_new_bind n (DNormal _ _)). intros _.
  refine (r_bind n _ _ _ _ _ _); [|intros a; apply r_ret].
  apply r_for. intros i [S prices]. apply r_assoc. refine (r_bind n _ _ _ _ _ _); [now apply r_draw|]. intros z.
  apply r_assoc. refine (r_bind n _ _ _ _ _ _); [apply r_poisson; left; now apply poisson_ctor|]. intros k.
  apply r_assoc. refine (r_bind n _ _ _ _ _ _); [|intros j; apply r_ret].
  apply r_iter. intros j x. refine (r_bind n _ _ _ _ _ _); [now apply r_draw|]. intros y. apply r_ret.
Qed.

Variables (kappa theta sigma_v rho v0 : R) (disc : CIRDisc).
Definition bates_step (x : R * R) : sampler (R * R) :=
  pbind (pdraw (SNormal 0 1)) (fun z1 =>
  pbind (pdraw (SNormal 0 1)) (fun z2 =>
  pbind (pcount (lambda * dt)) (fun k =>
  pbind (piter (Z.to_nat k) (fun S => pbind (pdraw (SNormal muJ sigmaJ)) (fun j => Done (Ok (S * exp j))))
          (fst x * exp ((r - c - half * npos (snd x)) * dt + sqrt (npos (snd x) * dt) * (rho * z1 + sqrt (1 - rho * rho) * z2)))) (fun S =>
  Done (Ok (S, cir_update disc (snd x) dt kappa theta sigma_v z1)))))).
Definition bates_sampler : sampler (list R) :=
  pbind (pnew DStdNormal) (fun _ => pbind (pnew (DPoisson (lambda * dt))) (fun _ => pbind (pnew (DNormal muJ sigmaJ)) (fun _ =>
  pbind (pfor_int n (record fst bates_step) (getPrice d, v0, [])) (fun st => Done (Ok (snd st)))))).

Lemma r_bates : renders n (fun env => bates_prices env kappa theta sigma_v rho v0 lambda muJ sigmaJ disc d r t) bates_sampler.
Proof.
  eapply r_dim; [intros env g Q D; unfold bates_prices, getDim; rewrite D; reflexivity|].
  apply (r_new_bind n DStdNormal). intros _. apply (r_new_bind n (DPoisson _)). intros PO. apply (r_new_bind n (DNormal _ _)). intros _.
  refine (r_bind n _ _ _ _ _ _); [|intros a; apply r_ret].
  apply r_for. intros i [[S V] prices]. apply r_assoc. refine (r_bind n _ _ _ _ _ _); [now apply r_draw|]. intros z1.
  apply r_assoc. refine (r_bind n _ _ _ _ _ _); [now apply r_draw|]. intros z2.
  apply r_assoc. refine (r_bind n _ _ _ _ _ _); [apply r_poisson; left; now apply poisson_ctor|]. intros k.
  apply r_assoc. refine (r_bind n _ _ _ _ _ _); [|intros j; apply r_ret].
  apply r_iter. intros j x. refine (r_bind n _ _ _ _ _ _); [now apply r_draw|]. intros y. apply r_ret.
Qed.
End Jumps.

Section Kou.
Variables (lambda p eta1 eta2 muJ : R).
Definition kou_jump_sampler (jumpSize : R) : sampler R :=
  pbind (pdraw (SUniform 0 1)) (fun U =>
  pbind (if nltb U p then pbind (pdraw (SExponential eta1)) (fun u => Done (Ok (jumpSize + u))) else Done (Ok jumpSize)) (fun jumpSize =>
  pbind (pdraw (SExponential eta2)) (fun e => Done (Ok (jumpSize + - e))))).
Definition kou_step (S : R) : sampler R :=
  pbind (pdraw (SNormal 0 1)) (fun z =>
  pbind (pcount (lambda * dt)) (fun k =>
  pbind (piter (Z.to_nat k) kou_jump_sampler 0) (fun jumpSize =>
  Done (Ok (S * exp ((r - c - half * sigma * sigma - lambda * (muJ - 1)) * dt + sigma * sqrt dt * z + jumpSize)))))).
Definition kou_sampler : sampler (list R) :=
  pbind (pnew DStdNormal) (fun _ => pbind (pnew (DPoisson (lambda * dt))) (fun _ => pbind (pnew (DUniform n0 n1)) (fun _ =>
  pbind (pnew (DExponential eta1)) (fun _ => pbind (pnew (DExponential eta2)) (fun _ =>
  pbind (pfor_int n (record (fun S => S) kou_step) (getPrice d, [])) (fun st => Done (Ok (snd st)))))))).

Lemma r_kou : renders n (fun env => kou_prices env lambda p eta1 eta2 muJ d r t) kou_sampler.
Proof.
  eapply r_dim; [intros env g Q D; unfold kou_prices, getDim; rewrite D; reflexivity|].
  apply (r_new_bind n DStdNormal). intros _. apply (r_new_bind n (DPoisson _)). intros PO. apply (r_new_bind n (DUniform _ _)). intros _.
  apply (r_new_bind n (DExponential _)). intros E1. apply (r_new_bind n (DExponential _)). intros E2.
  refine (r_bind n _ _ _ _ _ _); [|intros a; apply r_ret].
  apply r_for. intros i [S prices]. apply r_assoc. refine (r_bind n _ _ _ _ _ _); [now apply r_draw|]. intros z.
  apply r_assoc. refine (r_bind n _ _ _ _ _ _); [apply r_poisson; left; now apply poisson_ctor|]. intros k.
  apply r_assoc. refine (r_bind n _ _ _ _ _ _); [|intros j; apply r_ret].
  apply r_iter. intros j x. unfold kou_jump. refine (r_bind n _ _ _ _ _ _); [now apply r_draw|]. intros U.
  refine (r_bind n _ _ _ _ _ _).
  - apply r_if; [|apply r_ret]. refine (r_bind n _ _ _ _ _ _); [now apply r_draw, exp_ctor|]. intros u. apply r_ret.
  - intros js. refine (r_bind n _ _ _ _ _ _); [now apply r_draw, exp_ctor|]. intros e. apply r_ret.
Qed.
End Kou.

Section VG.
Variables (nu theta omega : R).
Definition vg_step (S : R) : sampler R :=
  pbind (pdraw (SGamma (dt / nu) (1 / nu))) (fun g =>
  pbind (pdraw (SNormal 0 1)) (fun z =>
  Done (Ok (S * exp ((r - c + omega) * dt + (theta * g + sigma * sqrt g * z)))))).
Definition vg_sampler : sampler (list R) :=
  pbind (pnew DStdNormal) (fun _ => pbind (pnew (DGamma (dt / nu) nu)) (fun _ =>
  pbind (pfor_int n (record (fun S => S) vg_step) (getPrice d, [])) (fun st => Done (Ok (snd st))))).

Lemma r_vg : renders n (fun env => vg_prices env nu theta omega d r t) vg_sampler.
Proof.
  eapply r_dim; [intros env g Q D; unfold vg_prices, getDim; rewrite D; reflexivity|].
  apply (r_new_bind n DStdNormal). intros _. apply (r_new_bind n (DGamma _ _)). intros _.
  refine (r_bind n _ _ _ _ _ _); [|intros a; apply r_ret].
  apply r_for. intros i [S prices]. apply r_assoc. refine (r_bind n _ _ _ _ _ _); [now apply r_draw|]. intros g.
  apply r_assoc. refine (r_bind n _ _ _ _ _ _); [now apply r_draw|]. intros z. apply r_ret.
Qed.
End VG.

Definition kind_sampler (k : ModelKind R) : sampler (list R) :=
  match k with
  | MGBM => gbm_sampler
  | MHeston kappa theta sigma_v rho v0 disc => heston_sampler kappa theta sigma_v rho v0 disc
  | MBates kappa theta sigma_v rho v0 lambda muJ sigmaJ disc => bates_sampler lambda muJ sigmaJ kappa theta sigma_v rho v0 disc
  | MKou lambda p eta1 eta2 muJ => kou_sampler lambda p eta1 eta2 muJ
  | MMerton lambda muJ sigmaJ => merton_sampler lambda muJ sigmaJ
  | MVarianceGamma nu theta omega => vg_sampler nu theta omega
  end.
Lemma r_kind : forall k, renders n (fun env => kind_prices env k d r t) (kind_sampler k).
Proof. intros []; [apply r_gbm|apply r_heston|apply r_bates|apply r_kou|apply r_merton|apply r_vg]. Qed.
End Models.

Definition path_sampler (m : StockModel R) (w : Market R) (t : R) (n : Z) : sampler (list R) :=
  pbind (Done (deref (mdStock m) w)) (fun d => kind_sampler d (mR w) t n (mdKind m)).
Lemma r_simulate : forall m w t n, renders n (fun env => simulatePrices env m w t) (path_sampler m w t n).
Proof. intros m w t n. refine (r_bind n _ _ _ _ _ _); [apply r_lift|]. intros d. apply r_kind. Qed.
