(** Pricing in the arithmetic [Rpartial], where an undefined operation gives [None]:
    everything the simulations and pricers compute is defined. *)
From Coq Require Import String List ZArith Bool Lia Reals Lra.
From Flocq Require Import Core.
From Verif Require Import M_Num M_Outcome M_Dict M_Stock M_Market M_Payoff M_Option M_Random M_Model
  M_Regression M_MonteCarlo M_Builder S_Model S_Partial S_MonteCarlo S_American L_Model L_MonteCarlo L_American.
Import ListNotations.
Local Open Scope R_scope.

#[local] Existing Instance Rpartial.
Notation OR := (option R).

Definition def (x : OR) : Prop := exists v, x = Some v.
Definition pos (x : OR) : Prop := exists v, x = Some v /\ 0 < v.
Definition nneg (x : OR) : Prop := exists v, x = Some v /\ 0 <= v.

Ltac opn := repeat match goal with
  | H : def _ |- _ => let v := fresh "v" in destruct H as (v & ->)
  | H : pos _ |- _ => let v := fresh "v" in let P := fresh "P" in destruct H as (v & -> & P)
  | H : nneg _ |- _ => let v := fresh "v" in let P := fresh "P" in destruct H as (v & -> & P) end.

Section Ops.
Local Open Scope num_scope.
Implicit Types x y : OR.
Lemma d_add x y : def x -> def y -> def (x + y).  Proof. intros; opn; eexists; reflexivity. Qed.
Lemma d_sub x y : def x -> def y -> def (x - y).  Proof. intros; opn; eexists; reflexivity. Qed.
Lemma d_mul x y : def x -> def y -> def (x * y).  Proof. intros; opn; eexists; reflexivity. Qed.
Lemma d_opp x : def x -> def (- x).  Proof. intros; opn; eexists; reflexivity. Qed.
Lemma d_exp x : def x -> def (nexp x).  Proof. intros; opn; eexists; reflexivity. Qed.
Lemma d_pos x : pos x -> def x.  Proof. intros; opn; eexists; reflexivity. Qed.
Lemma d_nneg x : nneg x -> def x.  Proof. intros; opn; eexists; reflexivity. Qed.
Lemma p_nneg x : pos x -> nneg x.  Proof. intros; opn; eexists; split; [reflexivity|lra]. Qed.
Lemma d_ofZ z : def (nofZ z).  Proof. eexists; reflexivity. Qed.
Lemma d_div x y : def x -> pos y -> def (x / y).
Proof. intros; opn. cbn. rewrite Req_bool_false by lra. eexists; reflexivity. Qed.
Lemma p_ofZ z : (1 <= z)%Z -> pos (nofZ z).
Proof. intros H. eexists; split; [reflexivity|]. apply IZR_lt. lia. Qed.
Lemma d_lit m e : (0 <= e)%Z -> def (lit m e).
Proof. intros H. unfold lit. apply d_div; [apply d_ofZ|]. apply p_ofZ.
  pose proof (Z.pow_pos_nonneg 10 e ltac:(lia) H). lia. Qed.
Lemma d_half : def nhalf.  Proof. apply d_lit. lia. Qed.
Lemma d_sqrt x : nneg x -> def (nsqrt x).
Proof. intros; opn. cbn. rewrite Rlt_bool_false by lra. eexists; reflexivity. Qed.
Lemma d_log x : pos x -> def (nlog x).
Proof. intros; opn. cbn. rewrite Rle_bool_false by lra. eexists; reflexivity. Qed.
Lemma p_exp x : def x -> pos (nexp x).
Proof. intros; opn. eexists; split; [reflexivity|]. apply exp_pos. Qed.
Lemma p_mul x y : pos x -> pos y -> pos (x * y).
Proof. intros; opn. eexists; split; [reflexivity|]. now apply Rmult_lt_0_compat. Qed.
Lemma p_add x y : pos x -> nneg y -> pos (x + y).
Proof. intros; opn. eexists; split; [reflexivity|]. lra. Qed.
Lemma p_div x y : pos x -> pos y -> pos (x / y).
Proof. intros; opn. cbn. rewrite Req_bool_false by lra. eexists; split; [reflexivity|]. now apply Rdiv_lt_0_compat. Qed.
Lemma nn_mul x y : nneg x -> nneg y -> nneg (x * y).
Proof. intros; opn. eexists; split; [reflexivity|]. now apply Rmult_le_pos. Qed.
Lemma nn_div x y : nneg x -> pos y -> nneg (x / y).
Proof.
  intros; opn. cbn. rewrite Req_bool_false by lra. eexists; split; [reflexivity|].
  apply Rmult_le_pos; [easy|]. left. now apply Rinv_0_lt_compat.
Qed.
Lemma d_max x y : def x -> def y -> def (nmax x y).
Proof. intros; opn. unfold nmax. destruct (Some v0 <? Some v); eexists; reflexivity. Qed.
Lemma d_min x y : def x -> def y -> def (nmin x y).
Proof. intros; opn. unfold nmin. destruct (Some v <? Some v0); eexists; reflexivity. Qed.
Lemma nn_max x : def x -> nneg (nmax x n0).
Proof.
  intros; opn. unfold nmax, n0; cbn. destruct (Rlt_bool_spec v 0); eexists; (split; [reflexivity|lra]).
Qed.
Lemma d_if (b : bool) x y : def x -> def y -> def (if b then x else y).
Proof. now destruct b. Qed.
Lemma nn_rho x v : x = Some v -> (-1 <= v <= 1)%R -> nneg (n1 - x * x).
Proof. intros -> H. eexists; split; [reflexivity|]. cbn. nra. Qed.
End Ops.

#[local] Hint Resolve d_add d_sub d_mul d_opp d_exp d_pos d_nneg d_ofZ d_half d_sqrt d_log p_exp p_mul
  nn_mul nn_max d_max d_min d_if p_nneg d_div nn_div : dd.
#[local] Hint Extern 1 (def (lit _ _)) => (apply d_lit; lia) : dd.
#[local] Hint Extern 1 (def n0) => apply d_ofZ : dd.
#[local] Hint Extern 1 (def n1) => apply d_ofZ : dd.

(** A computation on a pseudo-random generator of dimension [D] that always returns, with
    a result satisfying [Q]. *)
Definition tot (D : Z) {A} (Q : A -> Prop) (m : SM OR A) : Prop :=
  forall g, gQuasi g = None -> gDim g = D ->
  exists a g', m g = (Ok a, g') /\ gQuasi g' = None /\ gDim g' = D /\ Q a.

Section Tot.
Variable D : Z.
Variable env : Env OR.
Hypothesis E1 : forall s h, def (e_real env s h).
Hypothesis E2 : forall s a b h, nneg (e_real env s (EvDraw (SGamma a b) :: h)).

Lemma tot_ret : forall {A} (Q : A -> Prop) a, Q a -> tot D Q (sret a).
Proof. intros A Q a H g G1 G2. now exists a, g. Qed.
Lemma tot_lift : forall {A} (Q : A -> Prop) m a, m = Ok a -> Q a -> tot D Q (slift m).
Proof. intros A Q m a -> H g G1 G2. now exists a, g. Qed.
Lemma tot_bind : forall {A B} (P : A -> Prop) (Q : B -> Prop) m f,
  tot D P m -> (forall a, P a -> tot D Q (f a)) -> tot D Q (sbind m f).
Proof.
  intros A B P Q m f M F g G1 G2. destruct (M g G1 G2) as (a & g1 & E & H1 & H2 & HP).
  destruct (F a HP g1 H1 H2) as (b & g2 & E' & H). exists b, g2. unfold sbind. rewrite E. auto.
Qed.
Lemma tot_weaken : forall {A} (P Q : A -> Prop) m, (forall a, P a -> Q a) -> tot D P m -> tot D Q m.
Proof. intros A P Q m H M g G1 G2. destruct (M g G1 G2) as (a & g1 & E & H1 & H2 & HP). exists a, g1. auto. Qed.
Lemma tot_draw : forall d, tot D def (draw env d).
Proof.
  intros d g G1 G2. unfold draw. rewrite G1. do 2 eexists. split; [reflexivity|]. repeat split; auto.
  destruct d; auto. apply d_ofZ.
Qed.
Lemma tot_gamma : forall a b, tot D nneg (draw env (DGamma a b)).
Proof. intros a b g G1 G2. unfold draw. rewrite G1. do 2 eexists. split; [reflexivity|]. repeat split; auto. apply E2. Qed.
Lemma tot_poisson : forall l, tot D (fun _ => True) (draw_poisson env l).
Proof. intros l g G1 G2. unfold draw_poisson. rewrite G1. now do 2 eexists. Qed.
Lemma tot_new : forall d, dist_ok d = true -> tot D (fun a => a = d) (new_dist d).
Proof.
  intros d E g G1 G2. unfold new_dist, Distr_ctor. destruct d; cbn [dist_ok] in E;
    repeat match goal with |- context[nleb ?a ?b] => destruct (nleb a b) end; try discriminate;
    (do 2 eexists; split; [reflexivity|]; repeat split; easy).
Qed.
Lemma tot_siter : forall {A} (P : A -> Prop) (body : Z -> A -> SM OR A),
  (forall i a, P a -> tot D P (body i a)) -> forall n i s, P s -> tot D P (siter n i body s).
Proof.
  intros A P body B. induction n as [|n IH]; intros i s H; cbn [siter]; [now apply tot_ret|].
  eapply tot_bind; [now apply B|]. intros. now apply IH.
Qed.
Lemma tot_sfor : forall {A} (P : A -> Prop) (body : Z -> A -> SM OR A) n s, (n <= INT_MAX)%Z ->
  (forall i a, P a -> tot D P (body i a)) -> P s -> tot D P (sfor_int n body s).
Proof.
  intros A P body n s L B H. unfold sfor_int. destruct (Z.leb_spec n INT_MAX); [|lia]. now apply tot_siter.
Qed.

(** Inputs of a simulation whose values are defined. *)
Definition def_kind (k : ModelKind OR) : Prop :=
  match k with
  | MGBM => True
  | MHeston kappa theta sigma_v rho v0 _ =>
      def kappa /\ def theta /\ def sigma_v /\ def v0 /\ exists v, rho = Some v /\ -1 <= v <= 1
  | MBates kappa theta sigma_v rho v0 lambda muJ sigmaJ _ =>
      def kappa /\ def theta /\ def sigma_v /\ def v0 /\ (exists v, rho = Some v /\ -1 <= v <= 1) /\
      def lambda /\ def muJ /\ def sigmaJ
  | MKou lambda p eta1 eta2 muJ => def lambda /\ def p /\ def eta1 /\ def eta2 /\ def muJ
  | MMerton lambda muJ sigmaJ => def lambda /\ def muJ /\ def sigmaJ
  | MVarianceGamma nu theta omega => def nu /\ def theta /\ def omega
  end.
Definition def_stock (d : StockData OR) : Prop := pos (S_ d) /\ def (sigma_ d) /\ def (coupon d).

Definition path2 (s : OR * list OR) : Prop := pos (fst s) /\ Forall pos (snd s).
Definition path3 (s : OR * OR * list OR) : Prop := pos (fst (fst s)) /\ def (snd (fst s)) /\ Forall pos (snd s).

Lemma snoc : forall l x, Forall pos l -> pos x -> Forall pos (l ++ [x]).
Proof. intros l x H1 H2. apply Forall_app. split; auto. Qed.

Lemma d_cir : forall disc V dt kappa theta sigma_v z, def V -> nneg dt -> def kappa -> def theta ->
  def sigma_v -> def z -> def (cir_update disc V dt kappa theta sigma_v z).
Proof.
  intros disc V dt kappa theta s z H1 H2 H3 H4 H5 H6.
  assert (def (cir_euler V dt kappa theta s z)) by (unfold cir_euler; cbv zeta; auto 20 with dd).
  destruct disc; [easy|]. unfold cir_update, cir_milstein. cbv zeta. auto 20 with dd.
Qed.

Lemma tot_kind : forall k d r t, (1 <= D <= INT_MAX)%Z -> def_kind k -> def_stock d -> def r -> nneg t ->
  forallb dist_ok (kind_dists k (t / nofZ D)%num) = true ->
  tot D (Forall pos) (kind_prices env k d r t).
Proof.
  intros k d r t HD HK (HS & Hs & Hc) Hr Ht HF g G1 G2.
  assert (N : nneg (t / nofZ D)%num) by (apply nn_div; [easy|now apply p_ofZ]).
  destruct k; cbn [kind_prices kind_dists forallb] in *;
    unfold gbm_prices, heston_prices, bates_prices, kou_prices, merton_prices, vg_prices, getDim; cbv zeta;
    rewrite G2; match goal with |- exists _ _, ?m g = _ /\ _ => enough (K : tot D (Forall pos) m) by now apply K end;
    set (dt := (t / nofZ D)%num) in *; clearbody dt;
    repeat (apply andb_prop in HF; let F := fresh "F" in destruct HF as [F HF]);
    repeat (eapply tot_bind; [apply tot_new; assumption|]; intros ? ->); cbn [def_kind] in HK;
    repeat match goal with H : _ /\ _ |- _ => destruct H | H : exists _, _ |- _ => destruct H as [rv H] end.
  - eapply (tot_bind path2); [apply tot_sfor; [lia| |]|].
    + intros _ [x l] [P1 P2]. eapply tot_bind; [apply tot_draw|]. intros z Hz. apply tot_ret.
      assert (pos (x * nexp ((r - coupon d - nhalf * getSigma d * getSigma d) * dt + getSigma d * nsqrt dt * z)))%num
        by (unfold getSigma; auto 20 with dd).
      split; [easy|]. now apply snoc.
    + split; [exact HS|constructor].
    + intros [x l] [_ P2]. now apply tot_ret.
  - eapply (tot_bind path3); [apply tot_sfor; [lia| |]|].
    + intros _ [[x V] l] (P1 & P2 & P3). eapply tot_bind; [apply tot_draw|]. intros z1 Hz1.
      eapply tot_bind; [apply tot_draw|]. intros z2 Hz2. apply tot_ret.
      match goal with X : rho = Some ?v, Y : -1 <= ?v, Z : ?v <= 1 |- _ => pose proof (nn_rho rho _ X (conj Y Z)) as NR;
        assert (def rho) by (eexists; exact X) end.
      assert (pos (x * nexp ((r - coupon d - nhalf * nmax V n0) * dt +
        nsqrt (nmax V n0 * dt) * (rho * z1 + nsqrt (n1 - rho * rho) * z2))))%num.
      { cbn [fst snd] in *. auto 20 with dd. }
      split; [easy|]. split; [now apply d_cir|now apply snoc].
    + split; [exact HS|]. split; [easy|constructor].
    + intros [[x V] l] (_ & _ & P3). now apply tot_ret.
  - eapply (tot_bind path3); [apply tot_sfor; [lia| |]|].
    + intros _ [[x V] l] (P1 & P2 & P3). eapply tot_bind; [apply tot_draw|]. intros z1 Hz1.
      eapply tot_bind; [apply tot_draw|]. intros z2 Hz2.
      match goal with X : rho = Some ?v, Y : -1 <= ?v, Z : ?v <= 1 |- _ => pose proof (nn_rho rho _ X (conj Y Z)) as NR;
        assert (def rho) by (eexists; exact X) end.
      assert (pos (x * nexp ((r - coupon d - nhalf * nmax V n0) * dt +
        nsqrt (nmax V n0 * dt) * (rho * z1 + nsqrt (n1 - rho * rho) * z2))))%num.
      { cbn [fst snd] in *. auto 20 with dd. }
      eapply tot_bind; [apply tot_poisson|]. intros jc _.
      eapply (tot_bind pos); [apply tot_siter; [|easy]|].
      * intros _ y Hy. eapply tot_bind; [apply tot_draw|]. intros j Hj. apply tot_ret. auto with dd.
      * intros y Hy. apply tot_ret. split; [easy|]. split; [now apply d_cir|now apply snoc].
    + split; [exact HS|]. split; [easy|constructor].
    + intros [[x V] l] (_ & _ & P3). now apply tot_ret.
  - eapply (tot_bind path2); [apply tot_sfor; [lia| |]|].
    + intros _ [x l] [P1 P2]. eapply tot_bind; [apply tot_draw|]. intros z Hz.
      eapply tot_bind; [apply tot_poisson|]. intros jc _.
      eapply (tot_bind def); [apply tot_siter; [|apply d_ofZ]|].
      * intros _ y Hy. unfold kou_jump. eapply tot_bind; [apply tot_draw|]. intros U HU.
        eapply (tot_bind def).
        { destruct (nltb U p); [|now apply tot_ret]. eapply tot_bind; [apply tot_draw|]. intros j Hj.
          apply tot_ret. auto with dd. }
        intros y1 Hy1. eapply tot_bind; [apply tot_draw|]. intros e He. apply tot_ret. auto with dd.
      * intros y Hy. apply tot_ret.
        assert (pos (x * nexp ((r - coupon d - nhalf * getSigma d * getSigma d - lambda * (muJ - n1)) * dt +
          getSigma d * nsqrt dt * z + y)))%num by (unfold getSigma; auto 20 with dd).
        split; [easy|]. now apply snoc.
    + split; [exact HS|constructor].
    + intros [x l] [_ P2]. now apply tot_ret.
  - eapply (tot_bind path2); [apply tot_sfor; [lia| |]|].
    + intros _ [x l] [P1 P2]. eapply tot_bind; [apply tot_draw|]. intros z Hz.
      eapply tot_bind; [apply tot_poisson|]. intros jc _.
      eapply (tot_bind def); [apply tot_siter; [|apply d_ofZ]|].
      * intros _ y Hy. eapply tot_bind; [apply tot_draw|]. intros e He. apply tot_ret. auto with dd.
      * intros y Hy. apply tot_ret.
        assert (pos (x * nexp ((r - coupon d - nhalf * getSigma d * getSigma d) * dt +
          getSigma d * nsqrt dt * z + y)))%num by (unfold getSigma; auto 20 with dd).
        split; [easy|]. now apply snoc.
    + split; [exact HS|constructor].
    + intros [x l] [_ P2]. now apply tot_ret.
  - eapply (tot_bind path2); [apply tot_sfor; [lia| |]|].
    + intros _ [x l] [P1 P2]. eapply tot_bind; [apply tot_gamma|]. intros y Hy.
      eapply tot_bind; [apply tot_draw|]. intros z Hz. apply tot_ret.
      assert (pos (x * nexp ((r - coupon d + omega) * dt + (theta * y + getSigma d * nsqrt y * z))))%num
        by (unfold getSigma; auto 20 with dd).
      split; [easy|]. now apply snoc.
    + split; [exact HS|constructor].
    + intros [x l] [_ P2]. now apply tot_ret.
Qed.

Definition good_path (l : list OR) : Prop := Forall pos l /\ Z.of_nat (length l) = D.

(** A model in its market: everything it reads is defined. *)
Definition def_model (m : StockModel OR) (wm : Market OR) (t : OR) : Prop :=
  def_kind (mdKind m) /\ (exists d, deref (mdStock m) wm = Ok d /\ def_stock d) /\ def (getR wm) /\
  forallb dist_ok (kind_dists (mdKind m) (t / nofZ D)%num) = true.

Lemma tot_simulate : forall m wm t, (1 <= D <= INT_MAX)%Z -> def_model m wm t -> nneg t ->
  tot D good_path (simulatePrices env m wm t).
Proof.
  intros m wm t HD (HK & (d & Hd & HS) & Hr & HF) Ht g G1 G2.
  assert (K : tot D (Forall pos) (simulatePrices env m wm t)).
  { unfold simulatePrices. eapply (tot_bind (fun x => x = d)); [eapply tot_lift; [exact Hd|reflexivity]|].
    intros ? ->. now apply tot_kind. }
  destruct (K g G1 G2) as (a & g' & E & H1 & H2 & H3). exists a, g'. repeat split; try easy.
  apply simulate_length in E. destruct E as [E _]. rewrite E. lia.
Qed.

Lemma good_nonempty : forall l, (1 <= D)%Z -> good_path l -> l <> [].
Proof. intros l H [_ G] ->. cbn in G. lia. Qed.
Lemma good_last : forall l, (1 <= D)%Z -> good_path l -> pos (last l None).
Proof.
  intros l H G. pose proof (good_nonempty l H G) as N. destruct (exists_last N) as (pre & x & ->).
  rewrite last_last. destruct G as [G _]. apply Forall_app in G. destruct G as [_ G]. now inversion G.
Qed.

(** Options with defined parameters. *)
Definition def_payoff (p : Payoff OR) : Prop :=
  match p with
  | PVanilla _ K | PDigital _ K => def K
  | PDoubleDigital a b => def a /\ def b
  | PFloating _ => True
  end.
Definition def_option (o : Option OR) : Prop :=
  nneg (optT o) /\ def_payoff (optPayoff o) /\
  (optKind o <> FloatingLookback -> forall ty, optPayoff o <> PFloating ty) /\
  (optKind o = FloatingLookback -> exists ty, optPayoff o = PFloating ty) /\
  match optKind o with KnockIn | KnockOut => optBarrier o <> None | _ => True end.

Lemma payoff1_def : forall o x, def_option o -> optKind o <> FloatingLookback -> def x ->
  exists v, option_payoff1 o x = Ok v /\ def v.
Proof.
  intros o x (_ & HP & HN & _) K Hx. specialize (HN K). unfold option_payoff1.
  destruct (optPayoff o) as [ty k|ty k|a b|ty]; cbn [payoff1 def_payoff] in *; [| | |now destruct (HN ty)];
    eexists; (split; [reflexivity|]); auto 10 with dd.
Qed.
Lemma payoff2_def : forall o x y, def_option o -> optKind o = FloatingLookback -> def x -> def y ->
  exists v, option_payoff2 o x y = Ok v /\ def v.
Proof.
  intros o x y (_ & _ & _ & HF & _) K Hx Hy. destruct (HF K) as [ty E]. unfold option_payoff2. rewrite E.
  cbn [payoff2]. eexists; (split; [reflexivity|]); auto 10 with dd.
Qed.

Lemma fold_def : forall (f : OR -> OR) l a, (forall x, pos x -> def (f x)) -> Forall pos l -> def a ->
  def (fold_left (fun a x => nadd a (f x)) l a).
Proof. intros f. induction l as [|x l IH]; intros a Hf F Ha; cbn; [easy|]. inversion F; subst. apply IH; [easy|easy|]. apply d_add; auto. Qed.

Lemma fold_pos : forall l a, Forall pos l -> pos a -> pos (fold_left nadd l a).
Proof. induction l as [|x l IH]; intros a F Ha; cbn; [easy|]. inversion F; subst. apply IH; [easy|]. apply p_add; auto with dd. Qed.

Lemma touches_def : forall k o l, (k = KIn /\ optKind o = KnockIn) \/ (k = KOut /\ optKind o = KnockOut) ->
  optBarrier o <> None -> (Z.of_nat (length l) <= INT_MAX)%Z ->
  exists b, barrier_crossed k o l (Z.of_nat (length l)) = Ok b.
Proof.
  intros k o l K B L. unfold barrier_crossed, for_int. destruct (Z.leb_spec (Z.of_nat (length l)) INT_MAX); [|lia].
  rewrite Nat2Z.id. destruct (optBarrier o) as [[B0 d]|] eqn:EB; [|easy].
  assert (A : forall x, exists a, isActive o x = Ok a).
  { intros x. unfold isActive. rewrite EB. destruct K as [[_ ->]|[_ ->]]; eauto. }
  assert (I : forall suf pre s, l = pre ++ suf -> exists r,
    iter_from (length suf) (Z.of_nat (length pre)) (fun t '(hasCrossed, stop) =>
      if stop : bool then Ok (hasCrossed, true)
      else bind (vget l t) (fun x => bind (isActive o x) (fun a => Ok (checkHasCrossed k a hasCrossed)))) s = Ok r).
  { induction suf as [|x suf IH]; intros pre [h st] E; cbn [length iter_from]; [eauto|].
    replace (Z.of_nat (length pre) + 1)%Z with (Z.of_nat (length (pre ++ [x]))) by (rewrite app_length; cbn; lia).
    destruct st.
    - cbn [bind]. apply IH. now rewrite <- app_assoc.
    - replace (vget l (Z.of_nat (length pre))) with (Ok x) by (rewrite E; symmetry; apply vget_app).
      cbn [bind]. destruct (A x) as [a ->]. cbn [bind].
      apply IH. now rewrite <- app_assoc. }
  destruct (I l [] (false, false) eq_refl) as [r R]. change (Z.of_nat (length (@nil OR))) with 0%Z in R.
  rewrite R. cbn [bind]. eauto.
Qed.

Lemma ext_fold_def : forall l a b, Forall pos l -> def a -> def b ->
  exists u v, fold_left (fun e x => let '(mn, mx) := e in (min_from mn x, max_from mx x)) l (Some a, Some b) = (Some u, Some v)
    /\ def u /\ def v.
Proof.
  induction l as [|x l IH]; intros a b F Ha Hb; cbn [fold_left]; [eauto|].
  inversion F; subst. cbn [min_from max_from]. apply IH; auto with dd.
Qed.

Lemma tot_class : forall c o w m wm N, accepts c (optKind o) = true -> c <> CAmerican -> def_option o ->
  def (getR w) -> def_model m wm (optT o) -> (1 <= N <= INT_MAX)%Z -> (1 <= D <= INT_MAX)%Z ->
  tot D def (match c with
    | CSinglePath => single_path_price env o w m wm N
    | CAsian k => asian_price env k o w m wm N
    | CBarrier k => barrier_price env k o w m wm N
    | CLookback k => lookback_price env k o w m wm N
    | CAmerican => slift UB
    end).
Proof.
  intros c o w m wm N A NA HO Hr HM HN HD.
  assert (HT : nneg (optT o)) by apply HO.
  pose proof (tot_simulate m wm (optT o) HD HM HT) as SIM.
  assert (HDF : def (discount_factor w (optT o))) by (unfold discount_factor; auto with dd).
  assert (PN : pos (nofZ N)) by (apply p_ofZ; lia).
  assert (NE : forall l, good_path l -> l <> []) by (intros; now apply good_nonempty).
  assert (LL : forall l, good_path l -> (Z.of_nat (length l) <= INT_MAX)%Z) by (intros l [_ ->]; lia).
  assert (FIN : forall sum, def sum -> tot D def (sret (sum / nofZ N * discount_factor w (optT o))%num)).
  { intros sum Hs. apply tot_ret. auto with dd. }
  destruct c as [|k|k|k|]; [| | | |easy].
  - unfold single_path_price. cbv zeta. eapply (tot_bind def); [apply tot_sfor; [lia| |apply d_ofZ]|exact FIN].
    intros _ s Hs. unfold simulatePriceAtMaturity. eapply (tot_bind pos).
    { eapply tot_bind; [exact SIM|]. intros l G. eapply tot_lift; [exact (vback_last l None (NE l G))|].
      apply good_last; [lia|easy]. }
    intros x Hx. destruct (payoff1_def o x HO) as (v & E & Hv); [destruct (optKind o); easy|auto with dd|].
    eapply tot_bind; [eapply tot_lift; [exact E|exact Hv]|]. intros p Hp. apply tot_ret. auto with dd.
  - intros g G1 G2. unfold asian_price. cbv zeta. unfold getSteps, getDim. rewrite G2.
    match goal with |- exists _ _, ?m g = _ /\ _ => enough (K : tot D def m) by now apply K end.
    unfold sfor_ulong. eapply (tot_bind def); [apply tot_siter; [|apply d_ofZ]|exact FIN].
    intros _ s Hs. eapply tot_bind; [exact SIM|]. intros l G. pose proof G as [F L].
    eapply (tot_bind (fun x => x = fold_left (fun a x => nadd a (computeSumPrices k x)) l n0)).
    { eapply tot_lift; [|reflexivity]. rewrite <- L.
      apply (for_prices_fold (fun x a => nadd a (computeSumPrices k x))). auto. }
    intros ? ->.
    assert (HA : def (computeAveragePrice k (fold_left (fun a x => nadd a (computeSumPrices k x)) l n0) D)).
    { assert (def (fold_left (fun a x => nadd a (computeSumPrices k x)) l n0)).
      { apply fold_def; [|easy|apply d_ofZ]. intros x Hx. destruct k; cbn [computeSumPrices]; auto with dd. }
      assert (pos (nofZ D)) by (apply p_ofZ; lia). destruct k; cbn [computeAveragePrice]; auto with dd. }
    destruct (payoff1_def o (computeAveragePrice k (fold_left (fun a x => nadd a (computeSumPrices k x)) l n0) D) HO) as (v & E & Hv);
      [destruct k; destruct (optKind o); easy|exact HA|].
    eapply tot_bind; [eapply tot_lift; [exact E|exact Hv]|]. intros p Hp. apply tot_ret. auto with dd.
  - intros g G1 G2. unfold barrier_price. cbv zeta. unfold getSteps, getDim. rewrite G2.
    match goal with |- exists _ _, ?m g = _ /\ _ => enough (K : tot D def m) by now apply K end.
    eapply (tot_bind def); [apply tot_sfor; [lia| |apply d_ofZ]|exact FIN].
    intros _ s Hs. eapply tot_bind; [exact SIM|]. intros l G. pose proof G as [F L].
    eapply (tot_bind (fun _ => True)).
    { destruct (touches_def k o l) as (b & E).
      - destruct k; destruct (optKind o); try discriminate A; auto.
      - destruct HO as (_ & _ & _ & _ & HB). destruct k; destruct (optKind o); easy.
      - auto.
      - rewrite L in E. eapply tot_lift; [exact E|easy]. }
    intros b _. eapply (tot_bind pos).
    { assert (LP : last_price l D = Ok (last l None)) by (rewrite <- L; apply last_price_ok; auto).
      eapply tot_lift; [exact LP|]. apply good_last; [lia|easy]. }
    intros x Hx. destruct (payoff1_def o x HO) as (v & E & Hv); [destruct k; destruct (optKind o); easy|auto with dd|].
    eapply (tot_bind def).
    { unfold barrier_payoff. rewrite E. destruct k, b; (eapply tot_lift; [reflexivity|]); auto with dd. }
    intros p Hp. apply tot_ret. auto with dd.
  - intros g G1 G2. unfold lookback_price. cbv zeta. unfold getSteps, getDim. rewrite G2.
    match goal with |- exists _ _, ?m g = _ /\ _ => enough (K : tot D def m) by now apply K end.
    eapply (tot_bind def); [apply tot_sfor; [lia| |apply d_ofZ]|exact FIN].
    intros _ s Hs. eapply tot_bind; [exact SIM|]. intros l G. pose proof G as [F L].
    eapply (tot_bind (fun e => exists u v, e = (Some u, Some v) /\ def u /\ def v)).
    { assert (X : for_prices l D (fun x '(mn, mx) => ((min_from mn x, max_from mx x), false)) (None, None) =
        Ok (fold_left (fun e x => let '(mn, mx) := e in (min_from mn x, max_from mx x)) l (None, None))).
      { rewrite <- L. rewrite <- (for_prices_fold (fun x e => let '(mn, mx) := e in (min_from mn x, max_from mx x))) by auto.
        apply for_prices_ext; [auto|]. now intros x [a b]. }
      eapply tot_lift; [exact X|]. specialize (NE l G). destruct l as [|x l]; [easy|]. inversion F; subst. cbn [fold_left].
      assert (Y : neqb x x = true) by (opn; cbn; now apply Req_bool_true).
      cbn [min_from max_from]. rewrite Y. destruct (ext_fold_def l x x) as (u & v & E & Hu & Hv); auto with dd.
      exists u, v. auto. }
    intros e (u & v & -> & Hu & Hv). eapply (tot_bind pos).
    { assert (LP : last_price l D = Ok (last l None)) by (rewrite <- L; apply last_price_ok; auto).
      eapply tot_lift; [exact LP|]. apply good_last; [lia|easy]. }
    intros x Hx. cbn [fst snd or_inf]. eapply (tot_bind def).
    { unfold lookback_payoff. destruct k; destruct (optKind o) eqn:K; try discriminate A.
      - destruct (payoff2_def o x u HO K) as (p1 & Q1 & Q2); auto with dd.
        destruct (payoff2_def o x v HO K) as (p2 & R1 & R2); auto with dd. rewrite Q1, R1.
        destruct (PayoffType_eqb _ _); (eapply tot_lift; [reflexivity|]); auto.
      - destruct (payoff1_def o u HO) as (p1 & Q1 & Q2); auto with dd; [congruence|].
        destruct (payoff1_def o v HO) as (p2 & R1 & R2); auto with dd; [congruence|]. rewrite Q1, R1.
        destruct (PayoffType_eqb _ _); (eapply tot_lift; [reflexivity|]); auto. }
    intros p Hp. apply tot_ret. auto with dd.
Qed.
End Tot.

(** ** The American pricer *)
Section American.
Variable D : Z.
Variable env : Env OR.
Hypothesis E1 : forall s h, def (e_real env s h).
Hypothesis E2 : forall s a b h, nneg (e_real env s (EvDraw (SGamma a b) :: h)).

Lemma tot_runs : forall {A} (P : A -> Prop) sim, tot D P sim -> forall n,
  tot D (fun l => Forall P l /\ length l = n) (runs sim n).
Proof.
  intros A P sim S. induction n as [|n IH]; intros g G1 G2; cbn [runs].
  - now exists [], g.
  - destruct (S g G1 G2) as (a & g1 & Ea & H1 & H2 & H3). rewrite Ea.
    destruct (IH g1 H1 H2) as (l & g2 & El & H4 & H5 & H6 & H7). rewrite El.
    exists (a :: l), g2. repeat split; auto. cbn. now rewrite H7.
Qed.
Lemma tot_each : forall {A B} (f : A -> SM OR B), (forall x, tot D (fun _ => True) (f x)) -> forall l,
  tot D (fun ys => length ys = length l) (each f l).
Proof.
  intros A B f F. induction l as [|x l IH]; cbn [each]; [now apply tot_ret|].
  eapply tot_bind; [apply F|]. intros y _. eapply tot_bind; [exact IH|]. intros ys L. apply tot_ret. cbn. now rewrite L.
Qed.
Lemma tot_backward : forall m wm d x a b, deref (mdStock m) wm = Ok d -> mdKind m = MGBM ->
  tot D (fun _ => True) (simulatePriceBackward env m wm x a b).
Proof.
  intros m wm d x a b Hd HK. unfold simulatePriceBackward. rewrite HK.
  eapply (tot_bind D (fun _ => True)); [eapply tot_lift; [exact Hd|easy]|]. intros d' _. unfold gbm_backward. cbv zeta.
  eapply tot_bind; [apply tot_new|]. { cbn. now rewrite Rle_bool_false by lra. }
  intros ? ->. eapply tot_bind; [now apply tot_draw|]. intros z _. now apply tot_ret.
Qed.
Lemma tot_bridged : forall m wm d dt, deref (mdStock m) wm = Ok d -> mdKind m = MGBM -> forall n xs,
  tot D (fun _ => True) (bridged env m wm dt n xs).
Proof.
  intros m wm d dt Hd HK. induction n as [|n IH]; intros xs; cbn [bridged]; [now apply tot_ret|].
  eapply tot_bind; [apply tot_each; intros; eapply tot_backward; eauto|]. intros ys _.
  eapply tot_bind; [apply IH|]. intros rest _. now apply tot_ret.
Qed.

Lemma tot_dates : forall m wm t N g, gQuasi g = None -> gDim g = D -> (1 <= D <= INT_MAX)%Z ->
  def_model D m wm t -> nneg t ->
  exists last earlier g', price_dates env m wm t N (Z.to_nat D) (bridges m g) g = (Ok (last :: earlier), g') /\
    Forall pos last.
Proof.
  intros m wm t N g G1 G2 HD HM Ht.
  pose proof (tot_simulate D env E1 E2 m wm t HD HM Ht) as SIM.
  unfold price_dates. destruct (bridges m g) eqn:B.
  - assert (HK : mdKind m = MGBM) by (unfold bridges in B; destruct (gQuasi g), (mdKind m); easy).
    destruct HM as (_ & (d & Hd & _) & _ & _).
    match goal with |- exists _ _ _, ?m g = _ /\ _ =>
      enough (K : tot D (fun l => exists a b, l = a :: b /\ Forall pos a) m) end.
    { destruct (K g G1 G2) as (a & g' & E & _ & _ & x & y & -> & F). eauto. }
    eapply tot_bind.
    + apply (tot_runs pos). unfold simulatePriceAtMaturity. eapply tot_bind; [exact SIM|]. intros l G.
      eapply tot_lift; [exact (vback_last l None (good_nonempty D l ltac:(lia) G))|]. apply (good_last D); [lia|easy].
    + intros xs [F _]. eapply tot_bind; [eapply tot_bridged; eauto|]. intros rest _. apply tot_ret. eauto.
  - match goal with |- exists _ _ _, ?m g = _ /\ _ =>
      enough (K : tot D (fun l => exists a b, l = a :: b /\ Forall pos a) m) end.
    { destruct (K g G1 G2) as (a & g' & E & _ & _ & x & y & -> & F). eauto. }
    eapply tot_bind; [apply (tot_runs (good_path D)); exact SIM|]. intros paths [F _]. apply tot_ret.
    rewrite rev_seq_cons by lia. cbn [map]. do 2 eexists. split; [reflexivity|].
    unfold at_date. apply Forall_map. eapply Forall_impl; [|exact F]. intros l [G L].
    rewrite Forall_forall in G. apply G. apply nth_In. lia.
Qed.

Lemma tot_american : forall la o w m wm bs rg N g, optKind o = American -> def_option o -> def (getR w) ->
  def_model D m wm (optT o) -> regression_works la bs rg -> gQuasi g = None -> gDim g = D ->
  (1 <= N <= INT_MAX)%Z -> (1 <= D <= INT_MAX)%Z ->
  exists v g', american_price env la o w m wm bs rg N g = (Ok v, g') /\ def v.
Proof.
  intros la o w m wm bs rg N g K HO Hr HM RW G1 G2 HN HD.
  set (pay := fun x => match option_payoff1 o x with Ok v => v | _ => n0 end).
  assert (PAY : forall x, option_payoff1 o x = Ok (pay x)).
  { intros x. unfold pay, option_payoff1. destruct HO as (_ & _ & HN' & _). specialize (HN' ltac:(congruence)).
    destruct (optPayoff o) as [ty k|ty k|a b|ty]; cbn [payoff1]; try easy. now destruct (HN' ty). }
  destruct (tot_dates m wm (optT o) (Z.to_nat N) g G1 G2 HD HM) as (lst & earlier & g' & PD & FP); [apply HO|].
  rewrite <- G2 in PD, HD.
  destruct (american_total env la o w m wm bs rg N g lst earlier g' pay PAY HN HD RW PD) as [v E].
  exists v, g'. split; [exact E|].
  destruct (american_ok env la o w m wm bs rg N g v g' pay PAY HN HD E) as (lst' & earlier' & am & mn & PD' & L1 & L2 & L3 & LS & MN & EV).
  rewrite PD in PD'. injection PD' as <- <-.
  assert (HDF : def (discount_factor w (optT o / nofZ (gDim g))%num)).
  { unfold discount_factor. destruct HO as (HT & _). assert (pos (nofZ (gDim g))) by (apply p_ofZ; lia). auto 10 with dd. }
  eapply (lsm_inv la o pay PAY _ bs rg def (Z.to_nat N)) in LS.
  - destruct LS as [FA LA]. rewrite EV. apply d_mul; [|easy].
    unfold mean in MN. destruct am as [|a am]; [discriminate|].
    injection MN as <-. apply d_div.
    + unfold nsum. assert (X : forall l s, Forall def l -> def s -> def (fold_left nadd l s)).
      { induction l as [|y l IH]; intros s F H; cbn [fold_left]; [easy|]. inversion F; subst. apply IH; auto with dd. }
      apply X; [exact FA|apply d_ofZ].
    + apply p_ofZ. cbn [length]. lia.
  - intros a Ha. auto with dd.
  - rewrite Forall_forall in *. intros xs I. split; [auto|]. intros x _ HI. unfold itm, n0 in HI. cbn in HI.
    destruct (pay x); [now eexists|discriminate].
  - now rewrite map_length.
  - apply Forall_map. eapply Forall_impl; [|exact FP]. intros x Hx.
    destruct (payoff1_def o x HO ltac:(congruence) (d_pos _ Hx)) as (v0 & Ev & Hv). rewrite PAY in Ev. now injection Ev as ->.
Qed.
End American.

(** The bases of the library and the regressions fit together when the decompositions
    return one coefficient per column. *)
Lemma rec_row_length : forall T (num : Num T) f n (x : T), (1 <= n)%Z -> length (rec_row f n x) = Z.to_nat n.
Proof.
  intros T num f n x H. unfold rec_row. destruct (Z.leb_spec n 1); [cbn; lia|].
  assert (L : forall k i a c, length (rec_cols f k i a c) = k) by (induction k; intros; cbn; [easy|now rewrite IHk]).
  cbn [length]. rewrite L. lia.
Qed.
Definition la_shaped {T} (la : LinAlg T) : Prop := forall A y k, (forall row, In row A -> length row = k) -> A <> [] ->
  length (la_svd la A y) = k /\ length (la_ldlt la A y) = k.

Lemma works : forall T (num : Num T) (la : LinAlg T) n (bs : Basis T) (rg : Regression T), la_shaped la -> (1 <= n <= INT_MAX)%Z ->
  (bs = Monomial n \/ bs = Chebyshev n \/ bs = Legendre n \/ bs = Laguerre n) ->
  (rg = LeastSquares \/ (exists l, rg = Ridge l) \/ exists l, rg = Lasso l) ->
  regression_works la bs rg.
Proof.
  intros T num la n bs rg SH HN HB HR xs ys NE L.
  assert (G : exists rows, generate bs xs = Ok rows /\ length rows = length xs /\ forall row, In row rows -> length row = Z.to_nat n).
  { unfold generate. destruct HB as [->|[->|[->| ->]]]; destruct (Z.leb_spec n INT_MAX); try lia;
      eexists; (split; [reflexivity|]); rewrite map_length; (split; [easy|]);
      intros row I; apply in_map_iff in I; destruct I as (x & <- & _);
      [now rewrite map_length, seq_length|apply rec_row_length; lia..]. }
  destruct G as (rows & G1 & G2 & G3).
  assert (RN : rows <> []) by (destruct rows, xs; easy).
  assert (S : exists coeffs, solve la rg rows ys = Ok coeffs /\ length coeffs = Z.to_nat n).
  { destruct HR as [->|[[l ->]|[l ->]]]; cbn [solve]; eexists; (split; [reflexivity|]).
    - now apply SH.
    - assert (C : length (columns rows) = Z.to_nat n).
      { unfold columns. rewrite map_length, seq_length. destruct rows as [|row rows]; [easy|]. apply G3. now left. }
      apply SH.
      + intros row I. unfold ridge_matrix in I. apply in_map_iff in I. destruct I as (i & <- & _).
        now rewrite map_length, seq_length.
      + unfold ridge_matrix. rewrite C. destruct (Z.to_nat n) eqn:Z; [lia|]. easy.
    - rewrite map_length. now apply SH. }
  destruct S as (coeffs & S1 & S2). exists rows, coeffs. repeat split; auto.
  apply Forall_forall. intros row I. rewrite S2. auto.
Qed.
