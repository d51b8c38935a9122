(** Runs on a pseudo-random generator: draws always succeed. *)
From Coq Require Import String List ZArith Bool Lia.
From Verif Require Import M_Num M_Outcome M_Dict M_Stock M_Market M_Payoff M_Option M_Random M_Model
  M_Regression M_MonteCarlo M_Builder S_Pseudo S_Random S_Quasi S_MonteCarlo S_McPaths L_Model L_MonteCarlo L_McPaths.
Import ListNotations.

Section Pseudo.
Context {T : Type} {num : Num T}.
Variable env : Env T.
Variable dim : Z.
Hypothesis DIM : (1 <= dim <= INT_MAX)%Z.

Definition plain (g : Gen T) : Prop := gQuasi g = None /\ gDim g = dim.

(** [m] always returns a value. *)
Definition goes {A} (m : SM T A) : Prop := forall g, plain g -> exists a g', m g = (Ok a, g') /\ plain g'.
(** [m] always throws std::invalid_argument. *)
Definition stops {A} (m : SM T A) : Prop := forall g, plain g -> exists g', m g = (Throw InvalidArgument, g').

Lemma goes_ret : forall A (a : A), goes (sret a).
Proof. intros A a g G. now exists a, g. Qed.
Lemma goes_lift : forall A (x : outcome A), (exists a, x = Ok a) -> goes (slift x).
Proof. intros A x [a ->] g G. now exists a, g. Qed.
Lemma goes_bind : forall A B (m : SM T A) (f : A -> SM T B), goes m -> (forall a, goes (f a)) -> goes (sbind m f).
Proof. intros A B m f M F g G. unfold sbind. destruct (M g G) as (a & g1 & -> & G1). exact (F a g1 G1). Qed.
Lemma stops_first : forall A B (m : SM T A) (f : A -> SM T B), stops m -> stops (sbind m f).
Proof. intros A B m f M g G. unfold sbind. destruct (M g G) as (g1 & ->). eauto. Qed.
Lemma stops_then : forall A B (m : SM T A) (f : A -> SM T B), goes m -> (forall a, stops (f a)) -> stops (sbind m f).
Proof. intros A B m f M F g G. unfold sbind. destruct (M g G) as (a & g1 & -> & G1). exact (F a g1 G1). Qed.

Lemma goes_draw : forall d, goes (draw env d).
Proof. intros d g [Q D]. unfold draw. rewrite Q. do 2 eexists. split; [reflexivity|]. now split. Qed.
Lemma goes_poisson : forall l, goes (draw_poisson env l).
Proof. intros l g [Q D]. unfold draw_poisson. rewrite Q. do 2 eexists. split; [reflexivity|]. now split. Qed.
Lemma goes_iter : forall S body, (forall i (s : S), goes (body i s)) -> forall c i s, goes (siter (T := T) c i body s).
Proof.
  intros S body B. induction c as [|c IH]; intros i s; cbn [siter]; [apply goes_ret|]. apply goes_bind; auto.
Qed.
Lemma goes_sfor : forall S body n, (n <= INT_MAX)%Z -> (forall i (s : S), goes (body i s)) -> forall s, goes (sfor_int (T := T) n body s).
Proof. intros S body n L B s. unfold sfor_int. destruct (Z.leb_spec n INT_MAX); [|lia]. now apply goes_iter. Qed.

Lemma goes_new : forall d, Distr_ctor d = Ok d -> goes (new_dist d).
Proof. intros d H g [Q D]. unfold new_dist. rewrite H. do 2 eexists. split; [reflexivity|]. now split. Qed.
Lemma stops_new : forall d, Distr_ctor d = Throw InvalidArgument -> stops (new_dist d).
Proof. intros d H g G. unfold new_dist. rewrite H. eauto. Qed.

Hypothesis ONE : nleb (n1 : T) n0 = false.

Ltac go := repeat first [apply goes_ret | apply goes_draw | apply goes_poisson
  | apply goes_bind; [|intros] | apply goes_iter; intros | apply goes_sfor; [lia|intros] ].

Lemma std_ok : Distr_ctor (DStdNormal : Distr T) = Ok DStdNormal.
Proof. cbn. now rewrite ONE. Qed.

Lemma kind_runs : forall k d r t, let dt := ndiv t (nofZ dim) in
  (usable k dt = true -> goes (kind_prices env k d r t)) /\ (usable k dt = false -> stops (kind_prices env k d r t)).
Proof.
  intros k d r t dt. destruct k as [|kp th sv rh v0 dc|kp th sv rh v0 l mj sj dc|l p e1 e2 mj|l mj sj|nu th om];
    cbn [usable kind_prices]; split; intros U; try discriminate;
    rewrite ?andb_true_iff, ?negb_true_iff in U;
    unfold gbm_prices, heston_prices, bates_prices, kou_prices, merton_prices, vg_prices; cbv zeta;
    (let g := fresh "g" in let G := fresh "G" in let GD := fresh "GD" in intros g G; assert (GD : gDim g = dim) by apply G;
     unfold getDim; rewrite GD; fold dt; revert g G GD;
     match goal with
     | |- forall g, plain g -> _ -> exists a g', ?M g = (Ok _, _) /\ _ => enough (H : goes M) by (intros g G _; exact (H g G))
     | |- forall g, plain g -> _ -> exists g', ?M g = _ => enough (H : stops M) by (intros g G _; exact (H g G)) end).
  - apply goes_bind; [apply goes_new, std_ok|intros z]. go. destruct s as [x ps]. go.
  - apply goes_bind; [apply goes_new, std_ok|intros z]. go. destruct s as [[x v] ps]. go.
  - apply goes_bind; [apply goes_new, std_ok|intros z].
    apply goes_bind; [apply goes_new; cbn; now rewrite (proj1 U)|intros pd].
    apply goes_bind; [apply goes_new; cbn; now rewrite (proj2 U)|intros jd]. go. destruct s as [[x v] ps]. go.
  - apply stops_then; [apply goes_new, std_ok|intros z].
    destruct (nleb (nmul l dt) n0) eqn:P; [apply stops_first, stops_new; cbn; now rewrite P|].
    apply stops_then; [apply goes_new; cbn; now rewrite P|intros pd]. apply stops_first, stops_new. cbn.
    destruct (nleb sj n0); [reflexivity|discriminate].
  - destruct U as [[U1 U2] U3]. apply goes_bind; [apply goes_new, std_ok|intros z].
    apply goes_bind; [apply goes_new; cbn; now rewrite U1|intros pd].
    apply goes_bind; [apply goes_new; cbn; now rewrite ONE|intros ud].
    apply goes_bind; [apply goes_new; cbn; now rewrite U2|intros eu].
    apply goes_bind; [apply goes_new; cbn; now rewrite U3|intros ed]. go. destruct s as [x ps]. go. unfold kou_jump. go. destruct (nltb _ _); go.
  - apply stops_then; [apply goes_new, std_ok|intros z].
    destruct (nleb (nmul l dt) n0) eqn:P; [apply stops_first, stops_new; cbn; now rewrite P|].
    apply stops_then; [apply goes_new; cbn; now rewrite P|intros pd].
    apply stops_then; [apply goes_new; cbn; now rewrite ONE|intros ud].
    destruct (nleb e1 n0) eqn:P1; [apply stops_first, stops_new; cbn; now rewrite P1|].
    apply stops_then; [apply goes_new; cbn; now rewrite P1|intros eu]. apply stops_first, stops_new. cbn.
    destruct (nleb e2 n0); [reflexivity|discriminate].
  - apply goes_bind; [apply goes_new, std_ok|intros z].
    apply goes_bind; [apply goes_new; cbn; now rewrite (proj1 U)|intros pd].
    apply goes_bind; [apply goes_new; cbn; now rewrite (proj2 U)|intros jd]. go. destruct s as [x ps]. go.
  - apply stops_then; [apply goes_new, std_ok|intros z].
    destruct (nleb (nmul l dt) n0) eqn:P; [apply stops_first, stops_new; cbn; now rewrite P|].
    apply stops_then; [apply goes_new; cbn; now rewrite P|intros pd]. apply stops_first, stops_new. cbn.
    destruct (nleb sj n0); [reflexivity|discriminate].
  - apply goes_bind; [apply goes_new, std_ok|intros z].
    apply goes_bind; [apply goes_new; cbn; now rewrite (proj1 U), (proj2 U)|intros pd]. go. destruct s as [x ps]. go.
  - apply stops_then; [apply goes_new, std_ok|intros z]. apply stops_first, stops_new. cbn.
    destruct (nleb (ndiv dt nu) n0), (nleb nu n0); (reflexivity || discriminate).
Qed.

Lemma path_runs : forall m w d t, deref (mdStock m) w = Ok d -> let dt := ndiv t (nofZ dim) in
  (usable (mdKind m) dt = true -> goes (simulatePrices env m w t)) /\ (usable (mdKind m) dt = false -> stops (simulatePrices env m w t)).
Proof.
  intros m w d t D dt. destruct (kind_runs (mdKind m) d (mR w) t) as [A B]. unfold simulatePrices. split; intros U.
  - apply goes_bind; [apply goes_lift; eauto|intros d']. exact (proj1 (kind_runs (mdKind m) d' (mR w) t) U).
  - apply stops_then; [apply goes_lift; eauto|intros d']. exact (proj2 (kind_runs (mdKind m) d' (mR w) t) U).
Qed.

Lemma goes_adds : forall A (sim : SM T A) f body, goes sim -> adds dim sim f body ->
  (forall p, exists x, f p = Ok x) -> forall i s, goes (body i s).
Proof.
  intros A sim f body M B F i s g G. assert (D : gDim g = dim) by apply G. rewrite (B i s g D).
  destruct (M g G) as (a & g1 & -> & G1). destruct (F a) as [x ->]. eauto.
Qed.
Lemma stops_adds : forall A (sim : SM T A) f body, stops sim -> adds dim sim f body -> forall i s, stops (body i s).
Proof.
  intros A sim f body M B i s g G. assert (D : gDim g = dim) by apply G. rewrite (B i s g D).
  destruct (M g G) as (g1 & ->). eauto.
Qed.

Variable la : LinAlg T.
Lemma pseudo_price : forall P W w wm g N d, lives_in P W w wm g -> pcClass P <> CAmerican ->
  accepts (pcClass P) (optKind (pcOption P)) = true ->
  (forall k, pcClass P = CBarrier k -> exists b, optBarrier (pcOption P) = Some b) ->
  (forall p, exists x, path_payoff (pcClass P) (pcOption P) p = Ok x) ->
  deref (mdStock (moModel (pcModel P))) wm = Ok d -> plain g -> (1 <= N <= INT_MAX)%Z ->
  let u := usable (mdKind (moModel (pcModel P))) (ndiv (optT (pcOption P)) (nofZ dim)) in
  (u = true -> exists v, fst (calculatePrice env la P W N) = Ok v) /\ (u = false -> fst (calculatePrice env la P W N) = Throw InvalidArgument).
Proof.
  intros P W w wm g N d (L1 & L2 & L3) NA A HB HP D G LN u. unfold calculatePrice. rewrite L1, L2, L3.
  assert (GD : gDim g = dim) by apply G.
  pose proof (step_adds env (pcClass P) (pcOption P) (moModel (pcModel P)) wm dim A NA ltac:(lia) HB) as S.
  destruct (path_runs _ _ _ (optT (pcOption P)) D) as [PR PS]. fold u in PR, PS.
  assert (X : (u = true -> goes (siter (Z.to_nat N) 0%Z (fun _ s => class_step env (pcClass P) (pcOption P) (moModel (pcModel P)) wm dim s) n0)) /\
              (u = false -> stops (siter (Z.to_nat N) 0%Z (fun _ s => class_step env (pcClass P) (pcOption P) (moModel (pcModel P)) wm dim s) n0))).
  { split; intros U.
    - apply goes_iter. exact (goes_adds _ _ _ _ (PR U) S HP).
    - destruct (Z.to_nat N) as [|n] eqn:Z; [lia|]. cbn [siter]. apply stops_first. exact (stops_adds _ _ _ _ (PS U) S 0%Z n0). }
  destruct X as [X Y]. split; intros U; [specialize (X U g G); clear Y|specialize (Y U g G); clear X];
  (destruct (pcClass P) as [|c|c|c|]; [| | | |easy]); cbn [class_step] in *;
    match goal with |- context [let (_, _) := ?run g in _] => destruct (run g) as [res g1] eqn:RR end; cbn [fst];
    unfold single_path_price, asian_price, barrier_price, lookback_price in RR; cbv zeta in RR;
    unfold getSteps, getDim in RR; rewrite ?GD in RR; unfold sbind at 1 in RR;
    (unfold sfor_ulong in RR || (unfold sfor_int in RR; destruct (Z.leb_spec N INT_MAX); [|lia]));
    first [destruct X as (s & g2 & E & _)|destruct Y as (g2 & E)]; rewrite E in RR; injection RR as <- <-; eauto.
Qed.
End Pseudo.
