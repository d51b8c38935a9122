(** Means of averages of independent runs. *)
From Coq Require Import String List ZArith Reals Bool Lra Lia.
From Coquelicot Require Import Coquelicot.
From Flocq Require Import Core.
From Verif Require Import M_Num M_Outcome M_Dict M_Stock M_Market M_Payoff M_Option M_Random M_Model
  M_Regression M_MonteCarlo M_Builder S_Market S_Model S_Prob S_MonteCarlo S_Expect S_PriceMean
  L_Gauss L_Martingale L_MonteCarlo L_Expect L_Sampler L_Growth.
Import ListNotations.
Local Open Scope R_scope.

Fixpoint pruns {A} (p : sampler A) (n : nat) : sampler (list A) :=
  match n with
  | O => Done (Ok [])
  | S n' => pbind p (fun x => pbind (pruns p n') (fun l => Done (Ok (x :: l))))
  end.

Lemma r_runs : forall {A} n (c : Env R -> SM R A) p k, renders n c p -> renders n (fun env => runs (c env) k) (pruns p k).
Proof.
  intros A n c p k H. induction k as [|k IH]; [apply (r_ret n [])|]. cbn [pruns].
  apply (r_dim n _ (fun env => sbind (c env) (fun x => sbind (runs (c env) k) (fun l => sret (x :: l))))).
  - intros env g Q D. cbn [runs]. unfold sbind. destruct (c env g) as [[x|e|] g1]; [|reflexivity|reflexivity].
    destruct (runs (c env) k g1) as [[l|e|] g2]; reflexivity.
  - refine (r_bind n _ _ _ _ H _). intros x. refine (r_bind n _ _ _ _ IH _). intros l. apply r_ret.
Qed.

Section Runs.
Context {A : Type} (p : sampler A) (f : A -> R) (mu : R).
Hypothesis W : wf p.
Hypothesis H : is_E p f mu.

Lemma wf_runs : forall n, wf (pruns p n).
Proof. intros n. induction n as [|n IH]; cbn [pruns]; [easy|]. apply wf_bind; [easy|]. intros x. now apply wf_bind. Qed.

Lemma runs_sum : forall n, is_E (pruns p n) (fun l => Rsum (map f l)) (INR n * mu).
Proof.
  intros n. induction n as [|n IH]; cbn [pruns]; [cbn; ring|].
  pose proof (E_one _ _ _ W H) as O. pose proof (E_one _ _ _ (wf_runs n) IH) as On.
  apply (E_bind _ _ _ (fun x => f x + INR n * mu)).
  - rewrite S_INR. replace ((INR n + 1) * mu) with (mu + INR n * mu) by ring. apply E_plus; [exact H|]. now apply E_const.
  - intros x. apply E_map. apply (E_plus _ (fun _ => f x)); [now apply E_const|exact IH].
Qed.

Lemma runs_square : forall s n, is_E p (fun a => (f a - mu) * (f a - mu)) s ->
  is_E (pruns p n) (fun l => (Rsum (map f l) - INR n * mu) * (Rsum (map f l) - INR n * mu)) (INR n * s).
Proof.
  intros s n V. induction n as [|n IH]; cbn [pruns]; [cbn; ring|].
  pose proof (E_one _ _ _ W H) as O. pose proof (runs_sum n) as M. pose proof (E_one _ _ _ (wf_runs n) M) as On.
  apply (E_bind _ _ _ (fun x => (f x - mu) * (f x - mu) + INR n * s)).
  - rewrite S_INR. replace ((INR n + 1) * s) with (s + INR n * s) by ring. apply E_plus; [exact V|]. now apply E_const.
  - intros x. apply E_map. set (e := f x - mu).
    pose proof (E_plus _ _ _ _ _ (E_lin _ _ _ _ _ (2 * e) (e * e - 2 * e * (INR n * mu)) M On) IH) as K.
    replace (e * e + INR n * s) with (2 * e * (INR n * mu) + (e * e - 2 * e * (INR n * mu)) * 1 + INR n * s) by ring.
    eapply E_ext; [|exact K]. intros l. cbn [map Rsum fold_right].
    change (fold_right Rplus 0 (map f l)) with (Rsum (map f l)). rewrite S_INR. unfold e. ring.
Qed.

Lemma runs_length : forall n, always (fun l => length l = n) (pruns p n).
Proof.
  intros n. induction n as [|n IH]; cbn [pruns]; [easy|].
  apply (always_bind _ (fun _ => True)); [now apply always_true|]. intros x _.
  apply (always_bind _ (fun l => length l = n)); [exact IH|]. intros l L. cbn. now rewrite L.
Qed.
End Runs.

(** ** Prices *)
Lemma runs_avg : forall {A} (p : sampler A) (f : A -> R) n F m, (0 < n)%nat ->
  is_E (pruns p n) (fun l => F (Rsum (map f l) / INR n)) m -> is_E (pruns p n) (fun l => F (Rmean (map f l))) m.
Proof.
  intros A p f n F m N H. eapply E_ext_on; [|exact H]. eapply always_impl; [|apply runs_length].
  intros l L. cbn in L. unfold Rmean. now rewrite map_length, L.
Qed.

Lemma runs_mean : forall {A} (p : sampler A) f mu n c, wf p -> (0 < n)%nat -> is_E p f mu ->
  is_E (pruns p n) (fun l => c * Rmean (map f l)) (c * mu).
Proof.
  intros A p f mu n c W N H. apply E_scal. apply (runs_avg p f n (fun x => x) mu N).
  assert (N0 : INR n <> 0) by (apply not_0_INR; lia).
  replace mu with (/ INR n * (INR n * mu)) by (field; easy).
  eapply E_ext; [|apply E_scal, (runs_sum p f mu W H)]. intros l. unfold Rdiv. ring.
Qed.

Lemma runs_variance : forall {A} (p : sampler A) f mu s n c, wf p -> (0 < n)%nat -> is_E p f mu ->
  is_E p (fun a => (f a - mu) * (f a - mu)) s ->
  is_E (pruns p n) (fun l => (c * Rmean (map f l) - c * mu) * (c * Rmean (map f l) - c * mu)) (c * c * s / INR n).
Proof.
  intros A p f mu s n c W N H V.
  assert (N0 : INR n <> 0) by (apply not_0_INR; lia).
  apply (runs_avg p f n (fun x => (c * x - c * mu) * (c * x - c * mu)) _ N).
  replace (c * c * s / INR n) with (c * c / (INR n * INR n) * (INR n * s)) by (field; easy).
  eapply E_ext; [|apply E_scal, (runs_square p f mu W H s n V)]. intros l. cbn. field. easy.
Qed.

Section Pricer.
Variables (la : LinAlg R) (P : Pricer R) (W : World R) (w wm : Market R) (g : Gen R) (N : Z).
Hypothesis WF : wf_pricer P.
Hypothesis NA : pcClass P <> CAmerican.
Hypothesis L : lives_in P W w wm g.
Hypothesis LN : (1 <= N <= INT_MAX)%Z.
Hypothesis Q : gQuasi g = None.
Hypothesis LD : (1 <= gDim g)%Z.

Definition psim : sampler (list R) := path_sampler (moModel (pcModel P)) wm (optT (pcOption P)) (gDim g).
Definition value_of (paths : list (list R)) : R :=
  exp (- getR w * optT (pcOption P)) * Rmean (map (path_value (pcOption P)) paths).
Definition pprice : sampler R := pbind (pruns psim (Z.to_nat N)) (fun paths => Done (Ok (value_of paths))).

Lemma wf_psim : wf psim.
Proof. apply (r_simulate (moModel (pcModel P)) wm (optT (pcOption P)) (gDim g)). Qed.

Lemma price_follow : forall env,
  fst (calculatePrice env la P W N) = fst (follow env pprice g) /\
  moved P W (snd (follow env pprice g)) (snd (calculatePrice env la P W N)).
Proof.
  intros env. destruct WF as [A O].
  pose proof (calc_class env la P W w wm g N L NA) as E.
  rewrite (class_price env (pcClass P) (pcOption P) w (moModel (pcModel P)) wm N g A O NA LN LD) in E.
  assert (F : follow env pprice g =
    match runs (simulatePrices env (moModel (pcModel P)) wm (optT (pcOption P))) (Z.to_nat N) g with
    | (Ok paths, g1) => (Ok (value_of paths), g1) | (Throw e, g1) => (Throw e, g1) | (UB, g1) => (UB, g1) end).
  { unfold pprice. rewrite follow_bind. unfold sbind.
    destruct (r_runs (gDim g) _ _ (Z.to_nat N) (r_simulate (moModel (pcModel P)) wm (optT (pcOption P)) (gDim g))) as [_ S].
    unfold psim. rewrite <- (S env g Q eq_refl).
    destruct (runs _ (Z.to_nat N) g) as [[paths| |] g']; reflexivity. }
  rewrite F. destruct (runs _ (Z.to_nat N) g) as [[paths| |] g']; rewrite E; cbn [fst snd];
    (split; [reflexivity|eapply moved_world; eauto]).
Qed.

Lemma price_mean_iff : forall f m, is_price_mean la P W N f m <-> is_E (pruns psim (Z.to_nat N)) (fun l => f (value_of l)) m.
Proof.
  assert (G : nth_error (wGens W) (moGen (pcModel P)) = Some g) by apply L.
  assert (WP : wf pprice) by (apply wf_bind; [apply wf_runs, wf_psim|easy]).
  intros f m. split.
  - intros (g' & p & E & F & H). rewrite G in E. injection E as <-.
    assert (K : is_E pprice f m).
    { apply (E_transfer p pprice g); [easy| |easy]. intros env. destruct (F env) as [F1 F2].
      destruct (price_follow env) as [F3 F4]. rewrite (surjective_pairing (follow env p g)), (surjective_pairing (follow env pprice g)).
      f_equal; [congruence|]. destruct F2 as (_ & _ & F2). destruct F4 as (_ & _ & F4).
      specialize (F2 (moGen (pcModel P))). specialize (F4 (moGen (pcModel P))). rewrite Nat.eqb_refl in F2, F4. congruence. }
    clear - K. unfold pprice in K. revert m K. generalize (pruns psim (Z.to_nat N)). intros q.
    induction q as [[a|e|]|s q IH|s q IH|l q IH]; cbn; intros m K; auto.
    + destruct K as (h & K & Lw). exists h. split; [|easy]. intros x X. apply IH. now apply K.
    + destruct K as (h & K & Lw). exists h. split; [|easy]. intros x. apply IH. apply K.
  - intros H. exists g, pprice. split; [easy|]. split; [exact price_follow|]. now apply E_map.
Qed.
End Pricer.
