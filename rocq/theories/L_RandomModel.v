(** Model simulation against the generators: seeds, and jump models on quasi-random
    generators. *)
From Coq Require Import List ZArith Bool Lia.
From Verif Require Import M_Num M_Outcome M_Dict M_Stock M_Market M_Random M_Model S_Random L_Random.
Import ListNotations.

Section Seed.
Context {T : Type} {num : Num T}.
Variable env : Env T.

(** Pseudo-random generators that differ at most in seed_. *)
Definition gsim (g h : Gen T) : Prop :=
  gQuasi g = None /\ gQuasi h = None /\ gDim g = gDim h /\
  gEngine g = gEngine h /\ gHist g = gHist h.

Definition respects {A} (m : SM T A) : Prop :=
  forall g h, gsim g h -> fst (m g) = fst (m h) /\ gsim (snd (m g)) (snd (m h)).

Lemma respects_ret : forall A (a : A), respects (sret a).
Proof. intros A a g h G. split; [easy|exact G]. Qed.
Lemma respects_lift : forall A (a : outcome A), respects (slift a).
Proof. intros A a g h G. split; [easy|exact G]. Qed.
Lemma respects_bind : forall A B (m : SM T A) (f : A -> SM T B),
  respects m -> (forall a, respects (f a)) -> respects (sbind m f).
Proof.
  intros A B m f M F g h G. destruct (M g h G) as [E G'].
  unfold sbind. destruct (m g) as [o g'], (m h) as [o' h']. cbn in E, G'. subst o'.
  destruct o; [now apply F| |]; (split; [easy|exact G']).
Qed.
Lemma respects_new : forall d, respects (new_dist d).
Proof.
  intros d g h G. unfold new_dist. destruct (Distr_ctor d); try (split; [easy|exact G]).
  destruct G as (A & B & C & D & E). split; [easy|]. unfold gsim; cbn. now rewrite E.
Qed.
Lemma respects_draw : forall d, respects (draw env d).
Proof.
  intros d g h (A & B & C & D & E). unfold draw. rewrite A, B, D, E.
  split; [easy|]. unfold gsim, with_hist; cbn. auto.
Qed.
Lemma respects_poisson : forall l, respects (draw_poisson env l).
Proof.
  intros l g h (A & B & C & D & E). unfold draw_poisson. rewrite A, B, D, E.
  split; [easy|]. unfold gsim, with_hist; cbn. auto.
Qed.
Lemma respects_siter : forall A n i (body : Z -> A -> SM T A) s,
  (forall j a, respects (body j a)) -> respects (siter n i body s).
Proof.
  intros A n. induction n as [|n IH]; intros i body s B; cbn [siter].
  - apply respects_ret.
  - apply respects_bind; [apply B|]. intros a. now apply IH.
Qed.
Lemma respects_sfor : forall A n (body : Z -> A -> SM T A) s,
  (forall j a, respects (body j a)) -> respects (sfor_int n body s).
Proof.
  intros. unfold sfor_int. destruct (n <=? INT_MAX)%Z.
  - now apply respects_siter.
  - apply respects_bind; [now apply respects_siter|]. intros. apply respects_lift.
Qed.

Lemma respects_dim : forall A (f : Gen T -> SM T A) ,
  (forall g h, gsim g h -> f g = f h) -> (forall g, respects (f g)) -> respects (fun g => f g g).
Proof. intros A f E R g h G. rewrite (E g h G). now apply R. Qed.
End Seed.

Ltac respects_tac :=
  repeat match goal with
  | |- respects (sret _) => apply respects_ret
  | |- respects (slift _) => apply respects_lift
  | |- respects (sbind _ _) => apply respects_bind; [|intros ?]
  | |- respects (new_dist _) => apply respects_new
  | |- respects (draw _ _) => apply respects_draw
  | |- respects (draw_poisson _ _) => apply respects_poisson
  | |- respects (sfor_int _ _ _) => apply respects_sfor; intros ? ?
  | |- respects (siter _ _ _ _) => apply respects_siter; intros ? ?
  | |- respects (if ?b then _ else _) => destruct b
  | |- respects (let '(_, _) := ?p in _) => destruct p
  | |- respects (match ?p with (_, _) => _ end) => destruct p
  | |- _ => cbv zeta beta
  end.

Section Seed2.
Context {T : Type} {num : Num T}.
Variable env : Env T.

Lemma respects_kind : forall k (d : StockData T) r t, respects (kind_prices env k d r t).
Proof.
  intros k d r t. destruct k; unfold kind_prices.
  - unfold gbm_prices. apply (respects_dim _ (fun g0 => _)); [intros g h (_ & _ & D & _); unfold getDim; now rewrite D|intros g].
    respects_tac.
  - unfold heston_prices. apply (respects_dim _ (fun g0 => _)); [intros g h (_ & _ & D & _); unfold getDim; now rewrite D|intros g].
    respects_tac.
  - unfold bates_prices. apply (respects_dim _ (fun g0 => _)); [intros g h (_ & _ & D & _); unfold getDim; now rewrite D|intros g].
    respects_tac.
  - unfold kou_prices. apply (respects_dim _ (fun g0 => _)); [intros g h (_ & _ & D & _); unfold getDim; now rewrite D|intros g].
    respects_tac. unfold kou_jump. respects_tac.
  - unfold merton_prices. apply (respects_dim _ (fun g0 => _)); [intros g h (_ & _ & D & _); unfold getDim; now rewrite D|intros g].
    respects_tac.
  - unfold vg_prices. apply (respects_dim _ (fun g0 => _)); [intros g h (_ & _ & D & _); unfold getDim; now rewrite D|intros g].
    respects_tac.
Qed.

Lemma respects_simulate : forall m (w : Market T) t, respects (simulatePrices env m w t).
Proof. intros. unfold simulatePrices. respects_tac. apply respects_kind. Qed.

Lemma respects_backward : forall m (w : Market T) a b c, respects (simulatePriceBackward env m w a b c).
Proof.
  intros. unfold simulatePriceBackward. destruct (mdKind m); respects_tac.
  unfold gbm_backward. respects_tac.
Qed.

Lemma gsim_ctor : forall dim s1 s2, gsim (Pseudo_ctor dim s1 : Gen T) (Pseudo_ctor dim s2).
Proof. intros. unfold gsim; cbn. auto. Qed.

(** The draws of a pseudo-random generator depend on its engine and history only. *)
Lemma draws_dim : forall ds (g h : Gen T), gQuasi g = None -> gQuasi h = None ->
  gEngine g = gEngine h -> gHist g = gHist h -> fst (draws env ds g) = fst (draws env ds h).
Proof.
  induction ds as [|d ds IH]; intros g h Q1 Q2 E H; [reflexivity|]. cbn [draws].
  assert (X : fst (draw env d g) = fst (draw env d h) /\ gQuasi (snd (draw env d g)) = None /\
     gQuasi (snd (draw env d h)) = None /\ gEngine (snd (draw env d g)) = gEngine (snd (draw env d h)) /\
     gHist (snd (draw env d g)) = gHist (snd (draw env d h))).
  { unfold draw. rewrite Q1, Q2. cbn. rewrite E, H. auto. }
  destruct (draw env d g) as [o1 g1], (draw env d h) as [o2 h1]. cbn [fst snd] in X.
  destruct X as (-> & X1 & X2 & X3 & X4). specialize (IH g1 h1 X1 X2 X3 X4).
  destruct (draws env ds g1), (draws env ds h1). cbn [fst] in *. now rewrite IH.
Qed.

Lemma draws_seed : forall ds g h, gsim g h -> fst (draws env ds g) = fst (draws env ds h).
Proof.
  induction ds as [|d ds IH]; intros g h G; [easy|]. cbn [draws].
  destruct (respects_draw env d g h G) as [E G'].
  destruct (draw env d g) as [o g'], (draw env d h) as [o' h']. cbn in E, G'. subst o'.
  specialize (IH g' h' G'). destruct (draws env ds g'), (draws env ds h'). cbn in *. now rewrite IH.
Qed.
End Seed2.

(** ** Jump models on quasi-random generators *)
Section Jump.
Context {T : Type} {num : Num T}.
Variable env : Env T.

Definition is_jump_kind (k : ModelKind T) : bool :=
  match k with MGBM | MHeston _ _ _ _ _ _ => false | _ => true end.

Lemma newd_step : forall {A} d (f : Distr T -> SM T A) g, qok env g ->
  (forall g1, qok env g1 -> exists e g', f d g1 = (Throw e, g')) ->
  exists e g', sbind (new_dist d) f g = (Throw e, g').
Proof.
  intros A d f g Q F. destruct (qok_new env g d Q) as [[e E] | (g1 & E & Q1 & Dm)]; unfold sbind; rewrite E.
  - now exists e, g.
  - now apply F.
Qed.
Ltac newd g Q := apply newd_step; [assumption|]; intros g Q.

Lemma sbind_throw : forall {A B} (m : SM T A) (f : A -> SM T B) g e g',
  m g = (Throw e, g') -> sbind m f g = (Throw e, g').
Proof. intros. unfold sbind. now rewrite H. Qed.

Lemma jump_quasi_throws : forall k (d : StockData T) r t g, is_jump_kind k = true -> qok env g ->
  exists e g', kind_prices env k d r t g = (Throw e, g').
Proof.
  intros k d r t g J Q. pose proof (qok_dim env g Q) as D0. destruct k; try discriminate J; cbn [kind_prices].
  - unfold bates_prices. cbv zeta. newd g0 Q0. newd g1 Q1. newd g2 Q2.
    destruct (qok_draw_snd env g2 Q2) as (g3 & Q3 & [[x X]|[e X]]).
    2:{ exists e, g3. apply sbind_throw. apply sfor_int_first_throws; [easy|].
        unfold sbind. now rewrite X. }
    destruct (qok_draw_snd env g3 Q3) as (g4 & Q4 & [[y Y]|[e Y]]).
    2:{ exists e, g4. apply sbind_throw. apply sfor_int_first_throws; [easy|].
        unfold sbind. now rewrite X, Y. }
    destruct (qok_draw_poisson env g4 (nmul lambda (ndiv t (nofZ (getDim g)))) Q4) as (g5 & P).
    exists LogicError, g5. apply sbind_throw. apply sfor_int_first_throws; [easy|].
    unfold sbind. now rewrite X, Y, P.
  - unfold kou_prices. cbv zeta. newd g0 Q0. newd g1 Q1. newd g2 Q2. newd g3 Q3. newd g4 Q4.
    destruct (qok_draw_snd env g4 Q4) as (g5 & Q5 & [[x X]|[e X]]).
    2:{ exists e, g5. apply sbind_throw. apply sfor_int_first_throws; [easy|].
        unfold sbind. now rewrite X. }
    destruct (qok_draw_poisson env g5 (nmul lambda (ndiv t (nofZ (getDim g)))) Q5) as (g6 & P).
    exists LogicError, g6. apply sbind_throw. apply sfor_int_first_throws; [easy|].
    unfold sbind. now rewrite X, P.
  - unfold merton_prices. cbv zeta. newd g0 Q0. newd g1 Q1. newd g2 Q2.
    destruct (qok_draw_snd env g2 Q2) as (g3 & Q3 & [[x X]|[e X]]).
    2:{ exists e, g3. apply sbind_throw. apply sfor_int_first_throws; [easy|].
        unfold sbind. now rewrite X. }
    destruct (qok_draw_poisson env g3 (nmul lambda (ndiv t (nofZ (getDim g)))) Q3) as (g6 & P).
    exists LogicError, g6. apply sbind_throw. apply sfor_int_first_throws; [easy|].
    unfold sbind. now rewrite X, P.
  - unfold vg_prices. cbv zeta. newd g0 Q0. newd g1 Q1.
    destruct (qok_draw_other env g1 (DGamma (ndiv (ndiv t (nofZ (getDim g))) nu) nu) Q1) as (g2 & P); [discriminate|].
    exists LogicError, g2. apply sbind_throw. apply sfor_int_first_throws; [easy|].
    unfold sbind. now rewrite P.
Qed.
End Jump.
