(** Lemmas on samplers and expectations. *)
From Coq Require Import String List ZArith Reals Bool Lra Lia.
From Coquelicot Require Import Coquelicot.
From Verif Require Import M_Num M_Outcome M_Random S_Prob S_Expect L_Gauss.
Import ListNotations.
Local Open Scope R_scope.

(** ** Sequencing *)
Fixpoint pbind {A B} (p : sampler A) (k : A -> sampler B) : sampler B :=
  match p with
  | Done (Ok a) => k a
  | Done (Throw e) => Done (Throw e)
  | Done UB => Done UB
  | Create s q => Create s (pbind q k)
  | Sample s q => Sample s (fun x => pbind (q x) k)
  | Count s q => Count s (fun n => pbind (q n) k)
  end.

Fixpoint piter {S} (n : nat) (body : S -> sampler S) (s : S) : sampler S :=
  match n with
  | O => Done (Ok s)
  | Datatypes.S n' => pbind (body s) (piter n' body)
  end.

Definition pfor_int {S} (n : Z) (body : S -> sampler S) (s : S) : sampler S :=
  if (n <=? INT_MAX)%Z then piter (Z.to_nat n) body s
  else pbind (piter (Z.to_nat (INT_MAX + 1)) body s) (fun _ => Done UB).

Lemma follow_bind : forall {A B} env (p : sampler A) (k : A -> sampler B) g,
  follow env (pbind p k) g = sbind (follow env p) (fun a => follow env (k a)) g.
Proof.
  intros A B env p k. induction p as [[a|e|]|s p IH|s p IH|s p IH]; intros g; cbn; try reflexivity; unfold sbind in *; cbn; now rewrite IH.
Qed.

(** The parameters for which [is_law] and [is_Epoisson] are laws. *)
Definition proper (s : StdDist R) : Prop :=
  match s with SExponential l => 0 < l | SPoisson _ => False | _ => True end.
Fixpoint wf {A} (p : sampler A) : Prop :=
  match p with
  | Done _ => True
  | Create _ k => wf k
  | Sample s k => proper s /\ forall x, wf (k x)
  | Count l k => 0 <= l /\ forall n, wf (k n)
  end.
Lemma wf_bind : forall {A B} (p : sampler A) (k : A -> sampler B), wf p -> (forall a, wf (k a)) -> wf (pbind p k).
Proof.
  intros A B p k. induction p as [[a|e|]|s p IH|s p IH|s p IH]; intros W K; cbn in *; auto; destruct W as [S W]; split; [easy|auto|easy|auto].
Qed.

(** A computation follows a sampler from every pseudo-random generator of dimension [n]. *)
Definition renders {A} (n : Z) (c : Env R -> SM R A) (p : sampler A) : Prop :=
  wf p /\ forall env g, gQuasi g = None -> gDim g = n -> c env g = follow env p g.

Lemma follow_gen : forall {A} env (p : sampler A) g, gQuasi (snd (follow env p g)) = gQuasi g /\ gDim (snd (follow env p g)) = gDim g.
Proof.
  intros A env p. induction p as [o|s p IH|s p IH|s p IH]; intros g; cbn; [easy|apply (IH (with_hist g (EvNew s :: gHist g)))| |];
    match goal with |- context [follow env (p ?x) ?h] => apply (IH x h) end.
Qed.

Lemma r_bind : forall {A B} n (c : Env R -> SM R A) (k : Env R -> A -> SM R B) p q,
  renders n c p -> (forall a, renders n (fun env => k env a) (q a)) ->
  renders n (fun env => sbind (c env) (k env)) (pbind p q).
Proof.
  intros A B n c k p q [W H] K. split; [apply wf_bind; [easy|apply K]|]. intros env g Q D.
  rewrite follow_bind. unfold sbind. rewrite (H env g Q D).
  destruct (follow_gen env p g) as [Q' D']. destruct (follow env p g) as [[a|e|] g']; cbn in *; try reflexivity.
  apply K; congruence.
Qed.

Lemma r_ret : forall {A} n (a : A), renders n (fun _ => sret a) (Done (Ok a)).
Proof. easy. Qed.
Lemma r_lift : forall {A} n (o : outcome A), renders n (fun _ => slift o) (Done o).
Proof. easy. Qed.

Lemma r_draw : forall n d, proper (std_object d) ->
  renders n (fun env => draw env d) (Sample (std_object d) (fun x => Done (Ok x))).
Proof.
  intros n d N. split; [now cbn|]. intros env g Q D. unfold draw. rewrite Q. now destruct d.
Qed.

Lemma r_poisson : forall n l, 0 <= l -> renders n (fun env => draw_poisson env l) (Count l (fun k => Done (Ok k))).
Proof. intros n l L. split; [easy|]. intros env g Q D. unfold draw_poisson. rewrite Q. reflexivity. Qed.

Definition pnew (d : Distr R) : sampler (Distr R) :=
  match Distr_ctor d with
  | Ok _ => Create (std_object d) (Done (Ok d))
  | Throw e => Done (Throw e)
  | UB => Done UB
  end.
Lemma r_new : forall n d, renders n (fun _ => new_dist d) (pnew d).
Proof.
  intros n d. split; [unfold pnew; now destruct (Distr_ctor d)|].
  intros env g Q D. unfold new_dist, pnew. destruct (Distr_ctor d); reflexivity.
Qed.

Lemma r_iter : forall {S} n (body : Env R -> Z -> S -> SM R S) (q : S -> sampler S),
  (forall i s, renders n (fun env => body env i s) (q s)) ->
  forall m i s, renders n (fun env => siter m i (body env) s) (piter m q s).
Proof.
  intros S n body q H m. induction m as [|m IH]; intros i s; [apply r_ret|].
  apply (r_bind n (fun env => body env i s) (fun env => siter m (i + 1) (body env))); [apply H|]. intros a. apply IH.
Qed.

Lemma r_for : forall {S} n m (body : Env R -> Z -> S -> SM R S) (q : S -> sampler S) s,
  (forall i s, renders n (fun env => body env i s) (q s)) ->
  renders n (fun env => sfor_int m (body env) s) (pfor_int m q s).
Proof.
  intros S n m body q s H. unfold sfor_int, pfor_int. destruct (m <=? INT_MAX)%Z; [now apply r_iter|].
  refine (r_bind n (fun env => siter (Z.to_nat (INT_MAX + 1)) 0 (body env) s) (fun _ _ => slift UB) _ _ _ _);
    [now apply r_iter|]. easy.
Qed.

Lemma r_if : forall {A} n (b : bool) (c c' : Env R -> SM R A) p p',
  renders n c p -> renders n c' p' -> renders n (fun env => if b then c env else c' env) (if b then p else p').
Proof. intros A n [] c c' p p' H H'; assumption. Qed.

(** A computation that first reads the generator. *)
Lemma r_gen : forall {A} n (c : Env R -> Gen R -> SM R A) p,
  (forall h, gDim h = n -> renders n (fun env => c env h) p) ->
  renders n (fun env g => c env g g) p.
Proof.
  intros A n c p H. split; [apply (H (Pseudo_ctor n 0)); reflexivity|]. intros env g Q D. now apply H.
Qed.

(** ** Laws *)
Definition is_int (f : R -> R) (m : R) := is_integral f m.

Lemma integral_lin : forall f1 f2 m1 m2 a b, is_integral f1 m1 -> is_integral f2 m2 ->
  is_integral (fun x => a * f1 x + b * f2 x) (a * m1 + b * m2).
Proof.
  intros f1 f2 m1 m2 a b H1 H2 eps E. set (c := Rabs a + Rabs b + 1).
  assert (C : 0 < c) by (unfold c; pose proof (Rabs_pos a); pose proof (Rabs_pos b); lra).
  assert (Ec : 0 < eps / c) by (now apply Rdiv_lt_0_compat).
  destruct (H1 _ Ec) as (A1 & P1 & K1). destruct (H2 _ Ec) as (A2 & P2 & K2).
  exists (Rmax A1 A2). pose proof (Rmax_l A1 A2). pose proof (Rmax_r A1 A2). split; [lra|]. intros x y X Y.
  destruct (K1 x y ltac:(lra) ltac:(lra)) as (I1 & J1 & B1). destruct (K2 x y ltac:(lra) ltac:(lra)) as (I2 & J2 & B2).
  exists (a * I1 + b * I2). split.
  - apply (@is_RInt_plus R_NormedModule (fun x => a * f1 x) (fun x => b * f2 x) x y (a * I1) (b * I2));
      apply (@is_RInt_scal R_NormedModule); assumption.
  - replace (a * I1 + b * I2 - (a * m1 + b * m2)) with (a * (I1 - m1) + b * (I2 - m2)) by ring.
    eapply Rle_lt_trans; [apply Rabs_triang|]. rewrite !Rabs_mult.
    assert (eps = (Rabs a + Rabs b + 1) * (eps / c)) by (unfold c; field; unfold c in C; lra).
    pose proof (Rabs_pos a). pose proof (Rabs_pos b). nra.
Qed.

Lemma integral_pos_lin : forall f1 f2 m1 m2 a b, is_integral_pos f1 m1 -> is_integral_pos f2 m2 ->
  is_integral_pos (fun x => a * f1 x + b * f2 x) (a * m1 + b * m2).
Proof.
  intros f1 f2 m1 m2 a b H1 H2 eps E. set (c := Rabs a + Rabs b + 1).
  assert (C : 0 < c) by (unfold c; pose proof (Rabs_pos a); pose proof (Rabs_pos b); lra).
  assert (Ec : 0 < eps / c) by (now apply Rdiv_lt_0_compat).
  destruct (H1 _ Ec) as (d1 & A1 & P1 & K1). destruct (H2 _ Ec) as (d2 & A2 & P2 & K2).
  exists (Rmin d1 d2), (Rmax A1 A2). pose proof (Rmax_l A1 A2). pose proof (Rmax_r A1 A2).
  pose proof (Rmin_l d1 d2). pose proof (Rmin_r d1 d2).
  split; [split; [apply Rmin_glb_lt; lra|lra]|]. intros x y X Y.
  destruct (K1 x y ltac:(lra) ltac:(lra)) as (I1 & J1 & B1). destruct (K2 x y ltac:(lra) ltac:(lra)) as (I2 & J2 & B2).
  exists (a * I1 + b * I2). split.
  - apply (@is_RInt_plus R_NormedModule (fun x => a * f1 x) (fun x => b * f2 x) x y (a * I1) (b * I2));
      apply (@is_RInt_scal R_NormedModule); assumption.
  - replace (a * I1 + b * I2 - (a * m1 + b * m2)) with (a * (I1 - m1) + b * (I2 - m2)) by ring.
    eapply Rle_lt_trans; [apply Rabs_triang|]. rewrite !Rabs_mult.
    assert (eps = (Rabs a + Rabs b + 1) * (eps / c)) by (unfold c; field; unfold c in C; lra).
    pose proof (Rabs_pos a). pose proof (Rabs_pos b). nra.
Qed.

Lemma integral_pos_ext : forall f g m, (forall x, 0 < x -> f x = g x) -> is_integral_pos f m -> is_integral_pos g m.
Proof.
  intros f g m E H eps P. destruct (H eps P) as (d & A & D & K). exists d, A. split; [easy|]. intros a b Ha Hb.
  destruct (K a b Ha Hb) as (I & HI & B). exists I. split; [|easy]. eapply is_RInt_ext; [|exact HI].
  intros x X. rewrite Rmin_left in X by lra. apply E. lra.
Qed.

(** Monotonicity gives uniqueness. *)
Lemma integral_mono : forall f g m n, (forall x, f x <= g x) -> is_integral f m -> is_integral g n -> m <= n.
Proof.
  intros f g m n L H1 H2. destruct (Rle_dec m n) as [|N]; [easy|exfalso]. assert (E : 0 < (m - n) / 2) by lra.
  destruct (H1 _ E) as (A1 & P1 & K1). destruct (H2 _ E) as (A2 & P2 & K2).
  set (A := Rmax A1 A2 + 1). pose proof (Rmax_l A1 A2). pose proof (Rmax_r A1 A2).
  destruct (K1 (- A) A ltac:(unfold A; lra) ltac:(unfold A; lra)) as (I1 & J1 & B1).
  destruct (K2 (- A) A ltac:(unfold A; lra) ltac:(unfold A; lra)) as (I2 & J2 & B2).
  assert (I1 <= I2) by (eapply (is_RInt_le f g (- A) A); [unfold A; lra|exact J1|exact J2|intros; apply L]).
  apply Rabs_def2 in B1. apply Rabs_def2 in B2. lra.
Qed.
Lemma integral_pos_mono : forall f g m n, (forall x, 0 < x -> f x <= g x) -> is_integral_pos f m -> is_integral_pos g n -> m <= n.
Proof.
  intros f g m n L H1 H2. destruct (Rle_dec m n) as [|N]; [easy|exfalso]. assert (E : 0 < (m - n) / 2) by lra.
  destruct (H1 _ E) as (d1 & A1 & P1 & K1). destruct (H2 _ E) as (d2 & A2 & P2 & K2).
  set (A := Rmax A1 A2 + 1). pose proof (Rmax_l A1 A2). pose proof (Rmax_r A1 A2).
  set (d := Rmin d1 d2 / 2). pose proof (Rmin_l d1 d2). pose proof (Rmin_r d1 d2).
  assert (D : 0 < Rmin d1 d2) by (apply Rmin_glb_lt; lra).
  destruct (K1 d A ltac:(unfold d; lra) ltac:(unfold A; lra)) as (I1 & J1 & B1).
  destruct (K2 d A ltac:(unfold d; lra) ltac:(unfold A; lra)) as (I2 & J2 & B2).
  assert (I1 <= I2).
  { eapply (is_RInt_le f g d A); [unfold d, A; lra|exact J1|exact J2|]. intros x X. apply L. unfold d in X. lra. }
  apply Rabs_def2 in B1. apply Rabs_def2 in B2. lra.
Qed.
Lemma poisson_mono : forall l f g m n, 0 <= l -> (forall k, f k <= g k) -> is_Epoisson l f m -> is_Epoisson l g n -> m <= n.
Proof.
  intros l f g m n L LE H1 H2. unfold is_Epoisson in *.
  assert (H : is_series (fun k => exp (- l) * (l ^ k / INR (fact k)) * (g k - f k)) (n - m)).
  { pose proof (is_series_minus _ _ _ _ H2 H1) as H. eapply is_series_ext; [|exact H].
    intros k. unfold minus, plus, opp. cbn. ring. }
  assert (S0 : forall N, 0 <= sum_n (fun k => exp (- l) * (l ^ k / INR (fact k)) * (g k - f k)) N).
  { intros N. assert (P : forall k, 0 <= exp (- l) * (l ^ k / INR (fact k)) * (g k - f k)).
    { intros k. apply Rmult_le_pos; [|specialize (LE k); lra]. apply Rmult_le_pos; [left; apply exp_pos|].
      apply Rmult_le_pos; [now apply pow_le|]. left. apply Rinv_0_lt_compat, INR_fact_lt_0. }
    induction N as [|N IH]; [rewrite sum_O; apply P|]. rewrite sum_Sn. apply Rplus_le_le_0_compat; [exact IH|apply P]. }
  assert (LL : Rbar_le 0 (n - m)).
  { apply (is_lim_seq_le (fun _ => 0) (sum_n (fun k => exp (- l) * (l ^ k / INR (fact k)) * (g k - f k))) 0 (n - m)); [exact S0|apply is_lim_seq_const|exact H]. }
  cbn in LL. lra.
Qed.

Lemma gamma_weight_pos : forall k th x, 0 < gamma_weight k th x.
Proof. intros. unfold gamma_weight, Rpower. apply Rmult_lt_0_compat; apply exp_pos. Qed.

Lemma uniform_le : forall f g a b I J, a < b -> is_RInt f a b I -> is_RInt g a b J -> (forall x, a <= x < b -> f x <= g x) -> I <= J.
Proof. intros f g a b I J L H1 H2 LE. eapply (is_RInt_le f g a b); [lra|exact H1|exact H2|]. intros x X. apply LE. lra. Qed.

Lemma integral_pos_unique : forall f m n, is_integral_pos f m -> is_integral_pos f n -> m = n.
Proof. intros f m n H1 H2. apply Rle_antisym; eapply integral_pos_mono; try eassumption; intros; apply Rle_refl. Qed.

Lemma law_mono : forall s f g m n, (forall l, s = SExponential l -> 0 < l) -> (forall x, support s x -> f x <= g x) -> is_law s f m -> is_law s g n -> m <= n.
Proof.
  intros s f g m n P L H1 H2. destruct s; cbn in *; try contradiction.
  - eapply integral_mono; [|exact H1|exact H2]. intros x. cbn. apply Rmult_le_compat_r; [|now apply L].
    unfold phi. apply Rlt_le, Rdiv_lt_0_compat; [apply exp_pos|]. apply sqrt_lt_R0. pose proof PI_RGT_0. lra.
  - eapply integral_pos_mono; [|exact H1|exact H2]. intros x X. cbn. apply Rmult_le_compat_r; [|now apply L].
    specialize (P _ eq_refl). pose proof (exp_pos (- (lambda * x))). nra.
  - destruct H1 as (Z1 & Z1p & W1 & H1). destruct H2 as (Z2 & Z2p & W2 & H2).
    assert (Z1 = Z2) by (eapply integral_pos_unique; eassumption). subst Z2.
    assert (m * Z1 <= n * Z1); [|nra]. eapply integral_pos_mono; [|exact H1|exact H2]. intros x X. cbn.
    apply Rmult_le_compat_r; [left; apply gamma_weight_pos|now apply L].
  - destruct H1 as (L1 & H1), H2 as (_ & H2). assert (m * (b - a) <= n * (b - a)); [|nra].
    eapply uniform_le; eassumption.
Qed.

Lemma law_ext : forall s f g m, (forall x, support s x -> f x = g x) -> is_law s f m -> is_law s g m.
Proof.
  intros s f g m E H. destruct s; cbn in *; try contradiction.
  - eapply is_integral_ext; [|exact H]. intros x. cbn. now rewrite E.
  - eapply integral_pos_ext; [|exact H]. intros x X. cbn. now rewrite E.
  - destruct H as (Z & Zp & W & H). exists Z. split; [easy|]. split; [easy|]. eapply integral_pos_ext; [|exact H]. intros x X. cbn. now rewrite E.
  - destruct H as (L & H). split; [easy|]. eapply is_RInt_ext; [|exact H]. intros x X. rewrite Rmin_left, Rmax_right in X by lra. apply E. lra.
Qed.

Lemma law_lin : forall s f g m n a b, is_law s f m -> is_law s g n -> is_law s (fun x => a * f x + b * g x) (a * m + b * n).
Proof.
  intros s f g m n a b H1 H2. destruct s; cbn in *; try contradiction.
  - pose proof (integral_lin _ _ _ _ a b H1 H2) as H. eapply is_integral_ext; [|exact H]. intros x; cbn; ring.
  - pose proof (integral_pos_lin _ _ _ _ a b H1 H2) as H. eapply integral_pos_ext; [|exact H]. intros x _; cbn; ring.
  - destruct H1 as (Z1 & Z1p & W1 & H1). destruct H2 as (Z2 & Z2p & W2 & H2).
    assert (Z1 = Z2) by (eapply integral_pos_unique; eassumption). subst Z2.
    exists Z1. split; [easy|]. split; [easy|]. pose proof (integral_pos_lin _ _ _ _ a b H1 H2) as H.
    replace ((a * m + b * n) * Z1) with (a * (m * Z1) + b * (n * Z1)) by ring.
    eapply integral_pos_ext; [|exact H]. intros x _; cbn; ring.
  - destruct H1 as (L & H1), H2 as (_ & H2). split; [easy|].
    replace ((a * m + b * n) * (b0 - a0)) with (a * (m * (b0 - a0)) + b * (n * (b0 - a0))) by ring.
    apply (@is_RInt_plus R_NormedModule (fun x => a * f x) (fun x => b * g x)); apply (@is_RInt_scal R_NormedModule); assumption.
Qed.
Lemma poisson_lin : forall l f g m n a b, is_Epoisson l f m -> is_Epoisson l g n ->
  is_Epoisson l (fun x => a * f x + b * g x) (a * m + b * n).
Proof.
  intros l f g m n a b H1 H2. unfold is_Epoisson in *.
  pose proof (is_series_plus _ _ _ _ (is_series_scal a _ _ H1) (is_series_scal b _ _ H2)) as H.
  eapply is_series_ext; [|exact H]. intros k. unfold plus, scal; cbn. unfold mult; cbn. ring.
Qed.

(** Uniqueness without conditions on the parameters. *)
Lemma law_unique : forall s f m n, is_law s f m -> is_law s f n -> m = n.
Proof.
  intros s f m n H1 H2. destruct s; cbn in *; try contradiction.
  - eapply is_integral_unique; eassumption.
  - eapply integral_pos_unique; eassumption.
  - destruct H1 as (Z1 & Z1p & W1 & H1). destruct H2 as (Z2 & Z2p & W2 & H2).
    assert (Z1 = Z2) by (eapply integral_pos_unique; eassumption). subst Z2.
    assert (m * Z1 = n * Z1) by (eapply integral_pos_unique; eassumption). nra.
  - destruct H1 as (L & H1), H2 as (_ & H2). assert (m * (b - a) = n * (b - a)); [|nra].
    apply Rle_antisym; eapply uniform_le; try eassumption; intros; apply Rle_refl.
Qed.

(** ** Expectations of samplers *)
Lemma E_ext : forall {A} (p : sampler A) f g m, (forall a, f a = g a) -> is_E p f m -> is_E p g m.
Proof.
  intros A p. induction p as [[a|e|]|s p IH|s p IH|s p IH]; intros f g m E H; cbn in *; try contradiction.
  - now rewrite <- E.
  - eapply IH; eassumption.
  - destruct H as (h & H & L). exists h. split; [|easy]. intros x X. eapply IH; [exact E|now apply H].
  - destruct H as (h & H & L). exists h. split; [|easy]. intros x. eapply IH; [exact E|now apply H].
Qed.

Lemma E_unique : forall {A} (p : sampler A) f m n, is_E p f m -> is_E p f n -> m = n.
Proof.
  intros A p. induction p as [[a|e|]|s p IH|s p IH|s p IH]; intros f m n H1 H2; cbn in *; try contradiction.
  - congruence.
  - eapply IH; eassumption.
  - destruct H1 as (h1 & H1 & L1), H2 as (h2 & H2 & L2). eapply law_unique; [exact L1|].
    eapply law_ext; [|exact L2]. intros x X. eapply IH; [apply H2|apply H1]; easy.
  - destruct H1 as (h1 & H1 & L1), H2 as (h2 & H2 & L2).
    eapply is_Epoisson_unique; [exact L1|]. unfold is_Epoisson in *. eapply is_series_ext; [|exact L2].
    intros k. cbn. f_equal. eapply IH; [apply H2|apply H1].
Qed.

Lemma E_bind : forall {A B} (p : sampler A) (k : A -> sampler B) f h m,
  is_E p h m -> (forall a, is_E (k a) f (h a)) -> is_E (pbind p k) f m.
Proof.
  intros A B p k f. induction p as [[a|e|]|s p IH|s p IH|s p IH]; intros h m H K; cbn in *; try contradiction.
  - rewrite <- H. apply K.
  - eapply IH; eassumption.
  - destruct H as (h' & H & L). exists h'. split; [|easy]. intros x X. eapply IH; [now apply H|exact K].
  - destruct H as (h' & H & L). exists h'. split; [|easy]. intros x. eapply IH; [now apply H|exact K].
Qed.

(** A result computed from the result of a sampler. *)
Lemma E_map : forall {A B} (p : sampler A) (u : A -> B) f m,
  is_E (pbind p (fun a => Done (Ok (u a)))) f m <-> is_E p (fun a => f (u a)) m.
Proof.
  intros A B p u f. induction p as [[a|e|]|s p IH|s p IH|s p IH]; intros m; cbn; try easy.
  - split; intros (h & H & L); exists h; (split; [|easy]); intros x X; apply IH; auto.
  - split; intros (h & H & L); exists h; (split; [|easy]); intros x; apply IH; auto.
Qed.

Lemma E_lin : forall {A} (p : sampler A) f g m n a b, is_E p f m -> is_E p g n -> is_E p (fun x => a * f x + b * g x) (a * m + b * n).
Proof.
  intros A p f g. induction p as [[x|e|]|s p IH|s p IH|s p IH]; intros m n a b H1 H2; cbn in *; try contradiction.
  - congruence.
  - now apply IH.
  - destruct H1 as (h1 & H1 & L1), H2 as (h2 & H2 & L2). exists (fun x => a * h1 x + b * h2 x). split; [auto|now apply law_lin].
  - destruct H1 as (h1 & H1 & L1), H2 as (h2 & H2 & L2). exists (fun x => a * h1 x + b * h2 x). split; [auto|now apply poisson_lin].
Qed.

(** ** Two samplers a computation follows have the same means *)
Definition longer {T} (g : Gen T) (h : list (Ev T)) : Prop := (length (gHist g) < length h)%nat.

Definition same_beyond (g : Gen R) (e1 e2 : Env R) : Prop :=
  forall h, longer g h -> e_real e1 (gEngine g) h = e_real e2 (gEngine g) h /\ e_int e1 (gEngine g) h = e_int e2 (gEngine g) h.

Lemma follow_beyond : forall {A} (p : sampler A) g e1 e2, same_beyond g e1 e2 -> follow e1 p g = follow e2 p g.
Proof.
  intros A p. induction p as [o|s p IH|s p IH|s p IH]; intros g e1 e2 S; cbn; [easy| | |].
  - apply IH. intros h L. apply S. unfold longer in *; cbn in *; lia.
  - destruct (S (EvDraw s :: gHist g)) as [-> _]; [unfold longer; cbn; lia|].
    apply IH. intros h L. apply S. unfold longer in *; cbn in *; lia.
  - destruct (S (EvDraw (SPoisson s) :: gHist g)) as [_ ->]; [unfold longer; cbn; lia|].
    apply IH. intros h L. apply S. unfold longer in *; cbn in *; lia.
Qed.

(** The environment with other answers to requests as long as the next one. *)
Definition answer (e : Env R) (n : nat) (x : R) (z : Z) : Env R :=
  mkEnv (fun s h => if Nat.eqb (length h) n then x else e_real e s h)
        (fun s h => if Nat.eqb (length h) n then z else e_int e s h) (e_point e) (e_max e).

Lemma follow_hist : forall {A} env (p : sampler A) g, exists l, gHist (snd (follow env p g)) = l ++ gHist g.
Proof.
  intros A env p. induction p as [o|s p IH|s p IH|s p IH]; intros g; cbn.
  - now exists [].
  - destruct (IH (with_hist g (EvNew s :: gHist g))) as (l & ->). exists (l ++ [EvNew s]). rewrite <- app_assoc. reflexivity.
  - match goal with |- context [follow env (p ?x) ?h] => destruct (IH x h) as (l & ->) end.
    exists (l ++ [EvDraw s]). rewrite <- app_assoc. reflexivity.
  - match goal with |- context [follow env (p ?x) ?h] => destruct (IH x h) as (l & ->) end.
    exists (l ++ [EvDraw (SPoisson s)]). rewrite <- app_assoc. reflexivity.
Qed.

Lemma event_eq : forall {T} (l l' h : list (Ev T)) e e', l ++ e :: h = l' ++ e' :: h -> e = e'.
Proof.
  intros T l l' h e e' H. change (e :: h) with ([e] ++ h) in H. change (e' :: h) with ([e'] ++ h) in H.
  rewrite !app_assoc in H. apply app_inv_tail in H. now apply app_inj_tail in H.
Qed.

Definition env0 : Env R := mkEnv (fun _ _ => 0) (fun _ _ => 0%Z) (fun _ _ _ _ _ => 0) (fun _ => 1).

(** The first request. *)
Definition first {A} (p : sampler A) : option (Ev R) :=
  match p with
  | Done _ => None
  | Create s _ => Some (EvNew s)
  | Sample s _ => Some (EvDraw s)
  | Count l _ => Some (EvDraw (SPoisson l))
  end.
Lemma follow_first : forall {A} env (p : sampler A) g, exists l,
  gHist (snd (follow env p g)) = match first p with Some e => l ++ e :: gHist g | None => gHist g end.
Proof.
  intros A env p g. destruct p as [o|s p|s p|s p]; cbn.
  - now exists [].
  - destruct (follow_hist env p (with_hist g (EvNew s :: gHist g))) as (l & ->). now exists l.
  - match goal with |- context [follow env (p ?x) ?h] => destruct (follow_hist env (p x) h) as (l & ->) end. now exists l.
  - match goal with |- context [follow env (p ?x) ?h] => destruct (follow_hist env (p x) h) as (l & ->) end. now exists l.
Qed.
Lemma same_first : forall {A} (p q : sampler A) g, (forall env, follow env p g = follow env q g) -> first p = first q.
Proof.
  intros A p q g H. specialize (H env0).
  destruct (follow_first env0 p g) as (l & L). destruct (follow_first env0 q g) as (l' & L').
  rewrite H, L' in L. destruct (first p) as [e|], (first q) as [e'|]; [|exfalso..|easy].
  - f_equal. symmetry. eapply event_eq. exact L.
  - apply (f_equal (@length _)) in L. rewrite app_length in L. cbn in L. lia.
  - apply (f_equal (@length _)) in L. rewrite app_length in L. cbn in L. lia.
Qed.

Lemma E_transfer : forall {A} (p q : sampler A) g f m, wf q -> (forall env, follow env p g = follow env q g) ->
  is_E p f m -> is_E q f m.
Proof.
  intros A p. induction p as [o|s p IH|s p IH|l p IH]; intros q g f m W H H0; pose proof (same_first _ _ _ H) as F;
    destruct q as [o'|s' q|s' q|l' q]; try discriminate F; cbn [first] in F.
  - specialize (H env0). cbn in H. injection H as <-. exact H0.
  - injection F as <-. cbn in *. eapply IH; [exact W|exact H|exact H0].
  - injection F as <-. cbn [is_E] in *. destruct H0 as (h & K & L). exists h. split; [|exact L]. intros x X.
    destruct W as [_ W]. apply (IH x (q x) (with_hist g (EvDraw s :: gHist g))); [apply W| |now apply K].
    intros env. specialize (H (answer env (Datatypes.S (length (gHist g))) x 0)). cbn [follow] in H.
    cbn [answer e_real length] in H. rewrite Nat.eqb_refl in H.
    assert (B : same_beyond (with_hist g (EvDraw s :: gHist g)) (answer env (Datatypes.S (length (gHist g))) x 0) env).
    { intros h' L'. unfold longer in L'. cbn in L'. cbn. rewrite (proj2 (Nat.eqb_neq _ _)) by lia. easy. }
    now rewrite !(follow_beyond _ _ _ _ B) in H.
  - injection F as ->. cbn in H0. destruct H0 as (h & _ & []).
  - injection F as <-. cbn in W. now destruct W.
  - injection F as <-. cbn [is_E] in *. destruct H0 as (h & K & L). exists h. split; [|exact L]. intros x.
    apply (IH (Z.of_nat x) (q (Z.of_nat x)) (with_hist g (EvDraw (SPoisson l) :: gHist g))); [apply (proj2 W)| |now apply K].
    intros env. specialize (H (answer env (Datatypes.S (length (gHist g))) 0 (Z.of_nat x))). cbn [follow] in H.
    cbn [answer e_int length] in H. rewrite Nat.eqb_refl in H.
    assert (B : same_beyond (with_hist g (EvDraw (SPoisson l) :: gHist g)) (answer env (Datatypes.S (length (gHist g))) 0 (Z.of_nat x)) env).
    { intros h' L'. unfold longer in L'. cbn in L'. cbn. rewrite (proj2 (Nat.eqb_neq _ _)) by lia. easy. }
    now rewrite !(follow_beyond _ _ _ _ B) in H.
Qed.

(** The means of a computation are those of a sampler it is known to follow. *)
Lemma mean_iff : forall {A} n (c : Env R -> SM R A) p g f m, renders n c p -> gQuasi g = None -> gDim g = n ->
  (is_mean c g f m <-> is_E p f m).
Proof.
  intros A n c p g f m [W H] Q D. split.
  - intros (q & K & E). eapply (E_transfer q p g); [exact W| |exact E]. intros env. rewrite <- K. now apply H.
  - intros E. exists p. split; [|easy]. intros env. now apply H.
Qed.

(** ** Constants, sums, monotonicity *)
Lemma integral_pos_exp : forall C a, 0 < a -> is_integral_pos (fun x => C * exp (- (a * x))) (C / a).
Proof.
  intros C a A eps E.
  set (K := Rabs (C / a) + 1). assert (K0 : 0 < K) by (unfold K; pose proof (Rabs_pos (C / a)); lra).
  set (e := Rmin (eps / (2 * K)) (1 / 2)).
  assert (E0 : 0 < e) by (unfold e; apply Rmin_glb_lt; [apply Rdiv_lt_0_compat; lra|lra]).
  assert (E1 : e <= 1 / 2) by apply Rmin_r.
  assert (E2 : e * (2 * K) <= eps).
  { assert (e <= eps / (2 * K)) by apply Rmin_l. apply (Rmult_le_compat_r (2 * K)) in H; [|lra].
    replace (eps / (2 * K) * (2 * K)) with eps in H by (field; lra). exact H. }
  assert (Le : ln e < 0) by (rewrite <- ln_1; apply ln_increasing; lra).
  set (A1 := Rmax (- ln e / a) (e / a + 1)). exists (e / a), A1.
  assert (P0 : 0 < e / a) by (now apply Rdiv_lt_0_compat).
  pose proof (Rmax_l (- ln e / a) (e / a + 1)) as M1. pose proof (Rmax_r (- ln e / a) (e / a + 1)) as M2. fold A1 in M1, M2.
  split; [lra|]. intros x y X Y.
  exists (C / a * exp (- (a * x)) - C / a * exp (- (a * y))). split.
  - replace (C / a * exp (- (a * x)) - C / a * exp (- (a * y)))
      with (minus (- (C / a) * exp (- (a * y))) (- (C / a) * exp (- (a * x)))) by (unfold minus, plus, opp; cbn; ring).
    apply (@is_RInt_derive R_CompleteNormedModule (fun x => - (C / a) * exp (- (a * x)))).
    + intros z _. auto_derive; [easy|]. field. lra.
    + intros z _. apply cont_of_derive. auto_derive. easy.
  - assert (B1 : 1 - e < exp (- (a * x)) < 1).
    { assert (a * x < e) by (apply (Rmult_lt_reg_r (/ a)); [now apply Rinv_0_lt_compat|];
        replace (a * x * / a) with x by (field; lra); unfold Rdiv in X; lra).
      assert (0 < a * x) by nra. split.
      - pose proof (exp_ineq1 (- (a * x)) ltac:(lra)). lra.
      - rewrite <- exp_0 at 1. apply exp_increasing. lra. }
    assert (B2 : 0 < exp (- (a * y)) < e).
    { split; [apply exp_pos|]. rewrite <- (exp_ln e) at 1 by easy. apply exp_increasing.
      assert (- ln e / a < y) by lra. apply (Rmult_lt_compat_r a) in H; [|easy].
      replace (- ln e / a * a) with (- ln e) in H by (field; lra). lra. }
    replace (C / a * exp (- (a * x)) - C / a * exp (- (a * y)) - C / a)
      with (C / a * (exp (- (a * x)) - 1 - exp (- (a * y)))) by ring.
    rewrite Rabs_mult. assert (Rabs (exp (- (a * x)) - 1 - exp (- (a * y))) < 2 * e) by (apply Rabs_def1; lra).
    assert (Rabs (C / a) < K) by (unfold K; lra). pose proof (Rabs_pos (C / a)). nra.
Qed.

Lemma law_one : forall s h m, proper s -> is_law s h m -> is_law s (fun _ => 1) 1.
Proof.
  intros s h m P H. destruct s; cbn in *; try contradiction.
  - exact (Enormal_const 1).
  - pose proof (integral_pos_exp lambda lambda P) as I. replace (lambda / lambda) with 1 in I by (field; lra).
    eapply integral_pos_ext; [|exact I]. intros x _. cbn. ring.
  - destruct H as (Z & Zp & W & _). exists Z. split; [easy|]. split; [easy|]. rewrite Rmult_1_l.
    eapply integral_pos_ext; [|exact W]. intros x _. cbn. ring.
  - destruct H as [L _]. split; [easy|]. rewrite Rmult_1_l.
    evar_last; [apply (@is_RInt_const R_NormedModule a b 1)|]. unfold scal; cbn. unfold mult; cbn. ring.
Qed.

Lemma Epoisson_const : forall l C, is_Epoisson l (fun _ => C) C.
Proof.
  intros l C. pose proof (Epoisson_pow l C 1) as H. replace (C * exp (l * (1 - 1))) with C in H by
    (replace (l * (1 - 1)) with 0 by ring; rewrite exp_0; ring).
  unfold is_Epoisson in *. eapply is_series_ext; [|exact H]. intros n. cbn. rewrite pow1. ring.
Qed.

Lemma E_one : forall {A} (p : sampler A) f m, wf p -> is_E p f m -> is_E p (fun _ => 1) 1.
Proof.
  intros A p f. induction p as [[a|e|]|s p IH|s p IH|l p IH]; intros m W H; cbn in *; try contradiction; try easy.
  - now apply (IH m).
  - destruct H as (h & H & L), W as [P W]. exists (fun _ => 1). split; [|now apply (law_one s h m)].
    intros x X. apply (IH x (h x)); [apply W|now apply H].
  - destruct H as (h & H & L), W as [P W]. exists (fun _ => 1). split; [|apply Epoisson_const].
    intros x. apply (IH _ (h x)); [apply W|apply H].
Qed.

Lemma E_scal : forall {A} (p : sampler A) f m a, is_E p f m -> is_E p (fun x => a * f x) (a * m).
Proof.
  intros A p f m a H. pose proof (E_lin p f f m m a 0 H H) as L. replace (a * m + 0 * m) with (a * m) in L by ring.
  eapply E_ext; [|exact L]. intros x; cbn; ring.
Qed.
Lemma E_plus : forall {A} (p : sampler A) f g m n, is_E p f m -> is_E p g n -> is_E p (fun x => f x + g x) (m + n).
Proof.
  intros A p f g m n H1 H2. pose proof (E_lin p f g m n 1 1 H1 H2) as L. replace (1 * m + 1 * n) with (m + n) in L by ring.
  eapply E_ext; [|exact L]. intros x; cbn; ring.
Qed.
Lemma E_const : forall {A} (p : sampler A) c, is_E p (fun _ => 1) 1 -> is_E p (fun _ => c) c.
Proof.
  intros A p c H. apply (E_scal _ _ _ c) in H. rewrite Rmult_1_r in H. eapply E_ext; [|exact H]. intros x; cbn; ring.
Qed.

Lemma E_mono : forall {A} (p : sampler A) f g m n, wf p -> (forall a, f a <= g a) -> is_E p f m -> is_E p g n -> m <= n.
Proof.
  intros A p f g. induction p as [[a|e|]|s p IH|s p IH|l p IH]; intros m n W L H1 H2; cbn in *; try contradiction.
  - subst. apply L.
  - now apply IH.
  - destruct H1 as (h1 & H1 & L1), H2 as (h2 & H2 & L2), W as [P W]. eapply (law_mono s h1 h2); [|intros x X; apply (IH x); auto|exact L1|exact L2].
    intros l ->. exact P.
  - destruct H1 as (h1 & H1 & L1), H2 as (h2 & H2 & L2), W as [P W]. eapply (poisson_mono l h1 h2); [exact P|intros k; apply (IH (Z.of_nat k)); auto|exact L1|exact L2].
Qed.

(** What holds of every result. *)
Fixpoint always {A} (P : A -> Prop) (p : sampler A) : Prop :=
  match p with
  | Done (Ok a) => P a
  | Done _ => True
  | Create _ k => always P k
  | Sample _ k => forall x, always P (k x)
  | Count _ k => forall n, always P (k n)
  end.
Lemma always_bind : forall {A B} (P : B -> Prop) (Q : A -> Prop) (p : sampler A) (k : A -> sampler B),
  always Q p -> (forall a, Q a -> always P (k a)) -> always P (pbind p k).
Proof. intros A B P Q p k. induction p as [[a|e|]|s p IH|s p IH|l p IH]; intros H K; cbn in *; auto. Qed.
Lemma always_true : forall {A} (P : A -> Prop) (p : sampler A), (forall a, P a) -> always P p.
Proof. intros A P p H. induction p as [[a|e|]|s p IH|s p IH|l p IH]; cbn; auto. Qed.
Lemma E_ext_on : forall {A} (p : sampler A) f g m, always (fun a => f a = g a) p -> is_E p f m -> is_E p g m.
Proof.
  intros A p f g. induction p as [[a|e|]|s p IH|s p IH|l p IH]; intros m E H; cbn in *; try contradiction.
  - congruence.
  - auto.
  - destruct H as (h & H & L). exists h. split; [|exact L]. intros x X. apply IH; [apply E|auto].
  - destruct H as (h & H & L). exists h. split; [|exact L]. intros x. apply IH; [apply E|auto].
Qed.
Lemma always_impl : forall {A} (P Q : A -> Prop) (p : sampler A), (forall a, P a -> Q a) -> always P p -> always Q p.
Proof. intros A P Q p H. induction p as [[a|e|]|s q IH|s q IH|l q IH]; cbn; auto. Qed.

