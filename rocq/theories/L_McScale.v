(** Lemmas for the relations between Monte Carlo prices: two simulations run on the same
    draws, and how the path statistics scale. *)
From Coq Require Import String List ZArith Bool Lia Reals Lra.
From Verif Require Import M_Num M_Outcome M_Stock M_Market M_Payoff M_Option M_Random M_Model
  M_Regression M_MonteCarlo M_Builder S_Option S_Random S_Model S_MonteCarlo L_Model L_MonteCarlo.
Import ListNotations.
Local Open Scope R_scope.

(** ** Two computations on the same generator whose results are related *)
Section Rel.
Context {T : Type}.

Definition rel_out {A B} (RA : A -> B -> Prop) (x : outcome A * Gen T) (y : outcome B * Gen T) : Prop :=
  snd x = snd y /\
  match fst x, fst y with
  | Ok a, Ok b => RA a b
  | Throw e, Throw e' => e = e'
  | UB, UB => True
  | _, _ => False
  end.
Definition rel {A B} (RA : A -> B -> Prop) (m1 : SM T A) (m2 : SM T B) : Prop :=
  forall g, rel_out RA (m1 g) (m2 g).

Lemma rel_ret : forall {A B} (RA : A -> B -> Prop) a b, RA a b -> rel RA (sret a) (sret b).
Proof. intros A B RA a b H g. now split. Qed.

Lemma rel_same : forall {A} (m : SM T A), rel eq m m.
Proof. intros A m g. split; [reflexivity|]. destruct (m g) as [[a| |] h]; cbn; auto. Qed.

Lemma rel_bind : forall {A B C D} (RA : A -> B -> Prop) (RC : C -> D -> Prop)
  (m1 : SM T A) (m2 : SM T B) (f1 : A -> SM T C) (f2 : B -> SM T D),
  rel RA m1 m2 -> (forall a b, RA a b -> rel RC (f1 a) (f2 b)) -> rel RC (sbind m1 f1) (sbind m2 f2).
Proof.
  intros A B C D RA RC m1 m2 f1 f2 H F g. destruct (H g) as [H1 H2]. unfold sbind.
  destruct (m1 g) as [[a|e|] h], (m2 g) as [[b|e'|] h']; cbn in *; try contradiction; subst h'; subst.
  - now apply F.
  - now split.
  - now split.
Qed.

Lemma rel_bind_same : forall {A C D} (RC : C -> D -> Prop) (m : SM T A) (f1 : A -> SM T C) (f2 : A -> SM T D),
  (forall a, rel RC (f1 a) (f2 a)) -> rel RC (sbind m f1) (sbind m f2).
Proof. intros. apply (rel_bind eq); [apply rel_same|]. intros a b ->. auto. Qed.

Lemma rel_siter : forall {A B} (RA : A -> B -> Prop) (b1 : Z -> A -> SM T A) (b2 : Z -> B -> SM T B),
  (forall i x y, RA x y -> rel RA (b1 i x) (b2 i y)) ->
  forall n i x y, RA x y -> rel RA (siter n i b1 x) (siter n i b2 y).
Proof.
  intros A B RA b1 b2 H n. induction n as [|n IH]; intros i x y XY; cbn [siter].
  - now apply rel_ret.
  - apply (rel_bind RA); auto.
Qed.

Lemma rel_sfor : forall {A B} (RA : A -> B -> Prop) (b1 : Z -> A -> SM T A) (b2 : Z -> B -> SM T B) n x y,
  (forall i x y, RA x y -> rel RA (b1 i x) (b2 i y)) -> RA x y ->
  rel RA (sfor_int n b1 x) (sfor_int n b2 y).
Proof.
  intros A B RA b1 b2 n x y H XY. unfold sfor_int. destruct (n <=? INT_MAX)%Z.
  - now apply rel_siter.
  - apply (rel_bind RA); [now apply rel_siter|]. intros a b _ g. now split.
Qed.

Lemma rel_runs : forall {A B} (RA : A -> B -> Prop) (s1 : SM T A) (s2 : SM T B), rel RA s1 s2 ->
  forall n, rel (Forall2 RA) (runs s1 n) (runs s2 n).
Proof.
  intros A B RA s1 s2 H n. induction n as [|n IH]; intros g; [split; [reflexivity|constructor]|].
  cbn [runs]. destruct (H g) as [H1 H2].
  destruct (s1 g) as [[a|e|] h], (s2 g) as [[b|e'|] h']; cbn in *; try contradiction; subst; try (now split).
  destruct (IH h') as [I1 I2].
  destruct (runs s1 n h') as [[l|e|] k], (runs s2 n h') as [[l'|e'|] k']; cbn in *; try contradiction; subst;
    split; cbn; auto.
Qed.
End Rel.

(** ** Paths are proportional to the initial price *)
Section Scale.
Variable env : Env R.
Variable lam : R.

Definition scaled_stock (d d' : StockData R) : Prop :=
  S_ d' = lam * S_ d /\ sigma_ d' = sigma_ d /\ c_ d' = c_ d.
Definition scaled_path (p p' : list R) : Prop := p' = map (Rmult lam) p.
Definition sc2 (s s' : R * list R) : Prop := fst s' = lam * fst s /\ scaled_path (snd s) (snd s').
Definition sc3 (s s' : R * R * list R) : Prop :=
  fst (fst s') = lam * fst (fst s) /\ snd (fst s') = snd (fst s) /\ scaled_path (snd s) (snd s').

Ltac scdone := apply rel_ret; unfold sc2, sc3, scaled_path in *; cbn [fst snd] in *;
  repeat match goal with H : _ /\ _ |- _ => destruct H end; subst; rewrite ?map_app; cbn [map];
  rewrite <- ?Rmult_assoc; repeat split; reflexivity.
Ltac body := repeat match goal with |- rel _ (sbind _ _) (sbind _ _) => apply rel_bind_same; intros ? end.

Lemma rel_end : forall {A} (RA : A -> A -> Prop) (f : A -> list R) m1 m2, rel RA m1 m2 ->
  (forall x y, RA x y -> scaled_path (f x) (f y)) ->
  rel scaled_path (sbind m1 (fun s => sret (f s))) (@sbind R _ _ m2 (fun s => sret (f s))).
Proof. intros. apply (rel_bind RA); [easy|]. intros. apply rel_ret. auto. Qed.

Lemma rel_kind : forall k (d d' : StockData R) r t, scaled_stock d d' ->
  rel scaled_path (kind_prices env k d r t) (kind_prices env k d' r t).
Proof.
  intros k [S0 sg c] [S0' sg' c'] r t (E1 & E2 & E3). cbn in E1, E2, E3. subst. intros g.
  destruct k; cbn [kind_prices];
    unfold gbm_prices, heston_prices, bates_prices, kou_prices, merton_prices, vg_prices; cbv zeta;
    change (coupon (mkStock (lam * S0) sg c)) with (coupon (mkStock S0 sg c));
    unfold getPrice, getSigma; cbn [S_ sigma_];
    generalize (getDim g); intros steps; generalize (coupon (mkStock S0 sg c)); intros q.
  - refine (rel_bind_same _ _ _ _ _ g). intros sn.
    apply (rel_end sc2); [|now intros x y [_ H]]. apply rel_sfor; [|now split].
    intros _ [S p] [S' p'] H. body. scdone.
  - refine (rel_bind_same _ _ _ _ _ g). intros sn.
    apply (rel_end sc3); [|now intros x y (_ & _ & H)]. apply rel_sfor; [|now repeat split].
    intros _ [[S V] p] [[S' V'] p'] (H1 & H2 & H3). cbn in H1, H2, H3. subst V'. body. scdone.
  - refine (rel_bind_same _ _ _ _ _ g). intros sn. do 2 (apply rel_bind_same; intros ?).
    apply (rel_end sc3); [|now intros x y (_ & _ & H)]. apply rel_sfor; [|now repeat split].
    intros _ [[S V] p] [[S' V'] p'] (H1 & H2 & H3). cbn in H1, H2, H3. subst V'.
    do 3 (apply rel_bind_same; intros ?).
    apply (rel_bind (fun x y => y = lam * x)).
    + apply rel_siter; [|subst; now rewrite <- Rmult_assoc].
      intros _ x y ->. apply rel_bind_same. intros j. apply rel_ret. now rewrite <- Rmult_assoc.
    + intros x y ->. scdone.
  - refine (rel_bind_same _ _ _ _ _ g). intros sn. do 4 (apply rel_bind_same; intros ?).
    apply (rel_end sc2); [|now intros x y [_ H]]. apply rel_sfor; [|now split].
    intros _ [S p0] [S' p0'] H. body. scdone.
  - refine (rel_bind_same _ _ _ _ _ g). intros sn. do 2 (apply rel_bind_same; intros ?).
    apply (rel_end sc2); [|now intros x y [_ H]]. apply rel_sfor; [|now split].
    intros _ [S p] [S' p'] H. body. scdone.
  - refine (rel_bind_same _ _ _ _ _ g). intros sn. do 1 (apply rel_bind_same; intros ?).
    apply (rel_end sc2); [|now intros x y [_ H]]. apply rel_sfor; [|now split].
    intros _ [S p] [S' p'] H. body. scdone.
Qed.

Lemma rel_simulate : forall m (w w' : Market R) d d' t,
  deref (mdStock m) w = Ok d -> deref (mdStock m) w' = Ok d' -> scaled_stock d d' -> getR w' = getR w ->
  rel scaled_path (simulatePrices env m w t) (simulatePrices env m w' t).
Proof.
  intros m w w' d d' t D D' H Hr. unfold simulatePrices, getR in *. rewrite D, D', Hr.
  apply (rel_bind scaled_stock); [intros g; now split|]. intros a b AB. now apply rel_kind.
Qed.
End Scale.

(** ** Path statistics *)
Lemma Rsum_scale : forall c l, Rsum (map (Rmult c) l) = c * Rsum l.
Proof. intros c. induction l as [|x l IH]; cbn; [lra|]. fold (Rsum (map (Rmult c) l)). rewrite IH. fold (Rsum l). lra. Qed.

Lemma Rmean_scale : forall c l, Rmean (map (Rmult c) l) = c * Rmean l.
Proof. intros. unfold Rmean. rewrite Rsum_scale, map_length. unfold Rdiv. ring. Qed.

Lemma last_scale : forall c l, last (map (Rmult c) l) 0 = c * last l 0.
Proof.
  intros c. induction l as [|x [|y l] IH]; cbn [map last] in *; [lra|reflexivity|exact IH].
Qed.

Lemma lmin_scale : forall c l, 0 <= c -> lmin (map (Rmult c) l) = c * lmin l.
Proof.
  intros c [|x l] H; cbn; [lra|]. induction l as [|y l IH]; cbn; [reflexivity|].
  rewrite IH. unfold Rmin. destruct (Rle_dec _ _) as [A|A], (Rle_dec _ _) as [B|B]; try reflexivity.
  - destruct H as [H| <-]; [|lra]. exfalso. apply B. eapply Rmult_le_reg_l; eauto.
  - exfalso. apply A. now apply Rmult_le_compat_l.
Qed.
Lemma lmax_scale : forall c l, 0 <= c -> lmax (map (Rmult c) l) = c * lmax l.
Proof.
  intros c [|x l] H; cbn; [lra|]. induction l as [|y l IH]; cbn; [reflexivity|].
  rewrite IH. now rewrite RmaxRmult by easy.
Qed.

Lemma Rsum_ln_scale : forall c l, 0 < c -> Forall (Rlt 0) l ->
  Rsum (map ln (map (Rmult c) l)) = INR (length l) * ln c + Rsum (map ln l).
Proof.
  intros c l H F. induction F as [|x l X F IH]; [cbn; lra|].
  cbn [map Rsum fold_right length]. change (fold_right Rplus 0 (map ln (map (Rmult c) l))) with (Rsum (map ln (map (Rmult c) l))).
  rewrite IH, ln_mult, S_INR by easy. unfold Rsum. lra.
Qed.

Lemma geometric_scale : forall c l, 0 < c -> l <> [] -> Forall (Rlt 0) l ->
  geometric_mean (map (Rmult c) l) = c * geometric_mean l.
Proof.
  intros c l H N F. unfold geometric_mean, Rmean. rewrite Rsum_ln_scale by easy. rewrite !map_length.
  assert (0 < INR (length l)) by (destruct l; [easy|apply lt_0_INR; cbn; lia]).
  replace ((INR (length l) * ln c + Rsum (map ln l)) / INR (length l)) with (ln c + Rsum (map ln l) / INR (length l)) by (field; lra).
  now rewrite exp_plus, exp_ln.
Qed.

Lemma touched_scale : forall c B d l, 0 < c -> touched (c * B, d) (map (Rmult c) l) = touched (B, d) l.
Proof.
  intros c B d l H. unfold touched. induction l as [|x l IH]; [reflexivity|]. cbn [map existsb]. rewrite IH. f_equal.
  destruct (touches_dec (c * B, d) (c * x)) as [A|A], (touches_dec (B, d) x) as [A'|A']; try reflexivity;
    destruct d; cbn in *; exfalso.
  - apply A'. eapply Rmult_le_reg_l; eauto.
  - apply A'. eapply Rmult_le_reg_l; eauto.
  - apply A. apply Rmult_le_compat_l; lra.
  - apply A. apply Rmult_le_compat_l; lra.
Qed.

Lemma vanilla_scale : forall c ty K x, 0 <= c -> vanilla ty (c * K) (c * x) = c * vanilla ty K x.
Proof.
  intros c ty K x H. unfold vanilla. destruct ty; rewrite <- RmaxRmult by easy; rewrite Rmult_0_r; f_equal; ring.
Qed.
