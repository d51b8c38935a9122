(** Lemmas on the stock models. *)
From Coq Require Import String List ZArith Bool Lia Reals Lra.
From Flocq Require Import Core.
From Verif Require Import M_Num M_Outcome M_Dict M_Stock M_Market M_Random M_Model
  S_Random S_Model S_Partial S_Market.
Import ListNotations.

Section Loop.
Context {T : Type}.

Lemma sbind_ok : forall {A B} (m : SM T A) (f : A -> SM T B) g b g',
  sbind m f g = (Ok b, g') -> exists a g1, m g = (Ok a, g1) /\ f a g1 = (Ok b, g').
Proof.
  intros A B m f g b g' E. unfold sbind in E. destruct (m g) as [[a| |] g1]; try discriminate.
  now exists a, g1.
Qed.

Lemma siter_ok : forall {A} (P : nat -> A -> Gen T -> Prop) (body : Z -> A -> SM T A),
  (forall k j a h a' h', P k a h -> body j a h = (Ok a', h') -> P (S k) a' h') ->
  forall n i k s g s' g', P k s g -> siter n i body s g = (Ok s', g') -> P (k + n)%nat s' g'.
Proof.
  intros A P body B n. induction n as [|n IH]; intros i k s g s' g' H E; cbn [siter] in E.
  - injection E as -> ->. now rewrite Nat.add_0_r.
  - apply sbind_ok in E. destruct E as (a & g1 & E1 & E2).
    replace (k + S n)%nat with (S k + n)%nat by lia. eapply IH; [|exact E2]. eapply B; eauto.
Qed.

Lemma sfor_ok : forall {A} (P : nat -> A -> Gen T -> Prop) (body : Z -> A -> SM T A) n s g s' g',
  (forall k j a h a' h', P k a h -> body j a h = (Ok a', h') -> P (S k) a' h') ->
  P 0%nat s g -> sfor_int n body s g = (Ok s', g') -> P (Z.to_nat n) s' g' /\ (n <= INT_MAX)%Z.
Proof.
  intros A P body n s g s' g' B H E. unfold sfor_int in E. destruct (Z.leb_spec n INT_MAX).
  - split; [|easy]. eapply (siter_ok P body B _ _ 0%nat) in E; eauto.
  - apply sbind_ok in E. destruct E as (a & g1 & _ & E2). discriminate.
Qed.
End Loop.

Ltac sok := repeat match goal with
  | E : sbind _ _ _ = (Ok _, _) |- _ =>
      let a := fresh "a" in let g := fresh "g" in let E1 := fresh "E" in
      apply sbind_ok in E; destruct E as (a & g & E1 & E)
  | E : sret _ _ = (Ok _, _) |- _ => unfold sret in E; injection E as <- <-
  end.

Ltac floop P := match goal with
  | H : sfor_int _ _ _ _ = _ |- _ => refine (sfor_ok P _ _ _ _ _ _ _ _ H) end.
Ltac ploop P := match goal with
  | H : sfor_int _ _ _ _ = _ |- _ => refine (proj2 (proj1 (sfor_ok P _ _ _ _ _ _ _ _ H))) end.

Section Length.
Context {T : Type} {num : Num T}.
Variable env : Env T.

Definition len2 (k : nat) (s : T * list T) (_ : Gen T) : Prop := length (snd s) = k.
Definition len3 (k : nat) (s : T * T * list T) (_ : Gen T) : Prop := length (snd s) = k.

Lemma kind_length : forall k (d : StockData T) r t g prices g',
  kind_prices env k d r t g = (Ok prices, g') ->
  length prices = Z.to_nat (gDim g) /\ (gDim g <= INT_MAX)%Z.
Proof.
  intros k d r t g prices g' E. destruct k; cbn [kind_prices] in E.
  - unfold gbm_prices in E; cbv zeta in E; sok.
    floop len2; [|reflexivity].
    intros n j [S p] h a' h' L B; unfold len2 in *; sok; cbn [snd] in *; rewrite app_length; cbn; lia.
  - unfold heston_prices in E; cbv zeta in E; sok.
    floop len3; [|reflexivity].
    intros n j [[S V] p] h a' h' L B; unfold len3 in *; sok; cbn [snd] in *; rewrite app_length; cbn; lia.
  - unfold bates_prices in E; cbv zeta in E; sok.
    floop len3; [|reflexivity].
    intros n j [[S V] p] h a' h' L B; unfold len3 in *; sok; cbn [snd] in *; rewrite app_length; cbn; lia.
  - unfold kou_prices in E; cbv zeta in E; sok.
    floop len2; [|reflexivity].
    intros n j [S p0] h a' h' L B; unfold len2 in *; sok; cbn [snd] in *; rewrite app_length; cbn; lia.
  - unfold merton_prices in E; cbv zeta in E; sok.
    floop len2; [|reflexivity].
    intros n j [S p] h a' h' L B; unfold len2 in *; sok; cbn [snd] in *; rewrite app_length; cbn; lia.
  - unfold vg_prices in E; cbv zeta in E; sok.
    floop len2; [|reflexivity].
    intros n j [S p] h a' h' L B; unfold len2 in *; sok; cbn [snd] in *; rewrite app_length; cbn; lia.
Qed.

Lemma simulate_length : forall m (w : Market T) t g prices g',
  simulatePrices env m w t g = (Ok prices, g') ->
  length prices = Z.to_nat (gDim g) /\ (gDim g <= INT_MAX)%Z.
Proof.
  intros. unfold simulatePrices in H. sok. unfold slift in E. injection E as _ ->.
  eapply kind_length; eauto.
Qed.
End Length.

Section Positive.
Variable env : Env R.
Local Open Scope R_scope.

Definition pos2 (k : nat) (s : R * list R) (_ : Gen R) : Prop := 0 < fst s /\ Forall (Rlt 0) (snd s).
Definition pos3 (k : nat) (s : R * R * list R) (_ : Gen R) : Prop := 0 < fst (fst s) /\ Forall (Rlt 0) (snd s).

Lemma mul_exp_pos : forall a b, 0 < a -> 0 < a * exp b.
Proof. intros. apply Rmult_lt_0_compat; [easy|apply exp_pos]. Qed.
Hint Resolve mul_exp_pos : core.

Ltac posdone := cbn [fst snd] in *; split; [auto | apply Forall_app; split; [tauto|constructor; auto]].

Lemma kind_positive : forall k (d : StockData R) r t g prices g', 0 < S_ d ->
  kind_prices env k d r t g = (Ok prices, g') -> Forall (Rlt 0) prices.
Proof.
  intros k d r t g prices g' D E. destruct k; cbn [kind_prices] in E.
  - unfold gbm_prices in E; cbv zeta in E; sok.
    ploop pos2; [|split; [exact D|constructor]].
    intros n j [S p] h a' h' [L1 L2] B; unfold pos2 in *; sok; posdone.
  - unfold heston_prices in E; cbv zeta in E; sok.
    ploop pos3; [|split; [exact D|constructor]].
    intros n j [[S V] p] h a' h' [L1 L2] B; unfold pos3 in *; sok; posdone.
  - unfold bates_prices in E; cbv zeta in E; sok.
    ploop pos3; [|split; [exact D|constructor]].
    intros n j [[S V] p] h a' h' [L1 L2] B; unfold pos3 in *; sok.
    assert (0 < a6).
    { refine (siter_ok (fun _ (s : R) _ => 0 < s) _ _ _ _ 0%nat _ _ _ _ _ E6); [|cbn; auto].
      intros n0' j0 s0 h0 s1 h1 P1 B1. sok. cbn. auto. }
    posdone.
  - unfold kou_prices in E; cbv zeta in E; sok.
    ploop pos2; [|split; [exact D|constructor]].
    intros n j [S p0] h a' h' [L1 L2] B; unfold pos2 in *; sok; posdone.
  - unfold merton_prices in E; cbv zeta in E; sok.
    ploop pos2; [|split; [exact D|constructor]].
    intros n j [S p] h a' h' [L1 L2] B; unfold pos2 in *; sok; posdone.
  - unfold vg_prices in E; cbv zeta in E; sok.
    ploop pos2; [|split; [exact D|constructor]].
    intros n j [S p] h a' h' [L1 L2] B; unfold pos2 in *; sok; posdone.
Qed.

Lemma simulate_positive : forall m (w : Market R) t g prices g' d,
  deref (mdStock m) w = Ok d -> 0 < S_ d ->
  simulatePrices env m w t g = (Ok prices, g') -> Forall (Rlt 0) prices.
Proof.
  intros m w t g prices g' d D P E. unfold simulatePrices in E. sok. unfold slift in E0.
  injection E0 as E0 ->. rewrite D in E0. injection E0 as ->. eapply kind_positive; eauto.
Qed.
End Positive.

(** ** GBM in closed form *)
Section Gbm.
Variable env : Env R.
Local Open Scope R_scope.

Lemma draws_cons : forall d ds g z zs g',
  draws env (d :: ds) g = (map Ok (z :: zs), g') ->
  exists g1, draw env d g = (Ok z, g1) /\ draws env ds g1 = (map Ok zs, g').
Proof.
  intros d ds g z zs g' E. cbn [draws] in E. destruct (draw env d g) as [o g1].
  destruct (draws env ds g1) as [os g2] eqn:D2. cbn [map] in E. injection E as E1 E2 E3. subst. exists g1. now split.
Qed.

Lemma gbm_loop : forall (f : R -> R) dist zs i S p g g',
  draws env (repeat dist (length zs)) g = (map Ok zs, g') ->
  siter (length zs) i (fun _ '(S, prices) =>
     sbind (draw env dist) (fun z => sret (S * exp (f z), prices ++ [S * exp (f z)]))) (S, p) g =
  (Ok (S * exp (Rsum (map f zs)),
       p ++ map (fun k => S * exp (Rsum (map f (firstn k zs)))) (seq 1 (length zs))), g').
Proof.
  intros f dist. induction zs as [|z zs IH]; intros i S p g g' D.
  - cbn in *. injection D as <-. rewrite exp_0, Rmult_1_r, app_nil_r. reflexivity.
  - cbn [length repeat] in D. apply draws_cons in D. destruct D as (g1 & D1 & D2).
    cbn [length siter]. unfold sbind at 1. unfold sbind at 1. rewrite D1. unfold sret at 1.
    rewrite (IH _ _ _ _ _ D2). do 3 f_equal.
    + cbn [map Rsum fold_right]. fold (Rsum (map f zs)). rewrite exp_plus. ring.
    + rewrite <- app_assoc. f_equal. cbn [seq map firstn app].
      f_equal.
      * cbn. rewrite Rplus_0_r. reflexivity.
      * rewrite <- (seq_shift (length zs) 1), map_map. apply map_ext. intros k.
        cbn [firstn map Rsum fold_right]. fold (Rsum (map f (firstn k zs))). rewrite exp_plus. ring.
Qed.

Lemma Rsum_affine : forall m s zs, Rsum (map (fun z => m + s * z) zs) = m * INR (length zs) + s * Rsum zs.
Proof.
  intros m s. induction zs as [|z zs IH]; [cbn; lra|].
  cbn [map Rsum fold_right length]. fold (Rsum zs). fold (Rsum (map (fun z => m + s * z) zs)).
  rewrite IH, S_INR. lra.
Qed.

Lemma gbm_closed : forall (d : StockData R) r t g zs g',
  (0 <= gDim g <= INT_MAX)%Z -> length zs = Z.to_nat (gDim g) ->
  draws env (repeat DStdNormal (length zs)) (snd (new_dist DStdNormal g)) = (map Ok zs, g') ->
  gbm_prices env d r t g =
    (Ok (gbm_solution (S_ d) r (dividend d) (sigma_ d) (t / IZR (gDim g)) zs), g').
Proof.
  intros d r t g zs g' G L D. unfold gbm_prices. cbv zeta. unfold sbind at 1.
  assert (E : new_dist DStdNormal g = (Ok DStdNormal, snd (new_dist DStdNormal g))).
  { unfold new_dist, Distr_ctor, n0, n1; cbn. rewrite Rle_bool_false by lra. reflexivity. }
  rewrite E. unfold sfor_int, getDim. destruct (Z.leb_spec (gDim g) INT_MAX); [|lia].
  rewrite <- L. unfold sbind at 1.
  pose proof (gbm_loop (fun z => (r - dividend d - sigma_ d * sigma_ d / 2) * (t / IZR (gDim g))
      + sigma_ d * sqrt (t / IZR (gDim g)) * z) DStdNormal zs 0 (S_ d) [] _ _ D) as B.
  match goal with |- context[siter _ _ ?b _ _] => match type of B with siter _ _ ?b' _ _ = _ =>
    replace b with b' end end.
  - change (getPrice d) with (S_ d). cbv beta in B |- *. rewrite B. unfold sret. cbn [snd app]. f_equal. f_equal. unfold gbm_solution.
    apply map_ext_in. intros k K. apply in_seq in K.
    rewrite Rsum_affine, firstn_length, Nat.min_l by lia. f_equal. f_equal. lra.
  - assert (Hh : (nhalf : R) = 1 / 2) by (unfold nhalf, lit; cbn; lra).
    assert (Hc : coupon d = dividend d) by reflexivity.
    cbn -[coupon nhalf]. rewrite Hh, Hc. unfold getPrice, getSigma.
    replace ((r - dividend d - 1 / 2 * sigma_ d * sigma_ d) * (t / IZR (gDim g)))
      with ((r - dividend d - sigma_ d * sigma_ d / 2) * (t / IZR (gDim g))) by lra.
    reflexivity.
Qed.

(** ** Backward simulation *)
Lemma backward_value : forall (d : StockData R) Sn a b g z g',
  draw env DStdNormal (snd (new_dist DStdNormal g)) = (Ok z, g') ->
  gbm_backward env d Sn a b g =
    (Ok (S_ d * exp (a / b * ln (Sn / S_ d) + sqrt (a * (b - a) / b) * sigma_ d * z)), g').
Proof.
  intros d Sn a b g z g' D. unfold gbm_backward. cbv zeta. unfold sbind.
  assert (E : new_dist DStdNormal g = (Ok DStdNormal, snd (new_dist DStdNormal g))).
  { unfold new_dist, Distr_ctor, n0, n1; cbn. rewrite Rle_bool_false by lra. reflexivity. }
  rewrite E, D. reflexivity.
Qed.

Lemma backward_at_end : forall S Sn b sigma z, 0 < S -> 0 < Sn -> b <> 0 ->
  S * exp (b / b * ln (Sn / S) + sqrt (b * (b - b) / b) * sigma * z) = Sn.
Proof.
  intros. replace (b / b) with 1 by (field; easy).
  replace (b * (b - b) / b) with 0 by (field; easy). rewrite sqrt_0.
  replace (1 * ln (Sn / S) + 0 * sigma * z) with (ln (Sn / S)) by ring.
  rewrite exp_ln by (apply Rdiv_lt_0_compat; easy). field. lra.
Qed.

Lemma backward_at_start : forall S Sn b sigma z, b <> 0 ->
  S * exp (0 / b * ln (Sn / S) + sqrt (0 * (b - 0) / b) * sigma * z) = S.
Proof.
  intros. replace (0 * (b - 0) / b) with 0 by (field; easy). rewrite sqrt_0.
  replace (0 / b * ln (Sn / S) + 0 * sigma * z) with 0 by (field; easy). rewrite exp_0. lra.
Qed.

Lemma backward_between : forall S Sn a b, 0 < S -> 0 < Sn -> 0 <= a <= b -> 0 < b ->
  Rmin S Sn <= S * exp (a / b * ln (Sn / S)) <= Rmax S Sn.
Proof.
  intros S Sn a b HS HSn A B.
  set (u := a / b). assert (U : 0 <= u <= 1).
  { unfold u. split. unfold Rdiv; apply Rmult_le_pos; [lra|left; apply Rinv_0_lt_compat; lra].
    apply Rmult_le_reg_r with b; [easy|]. unfold Rdiv. rewrite Rmult_assoc, Rinv_l by lra. lra. }
  assert (E : S * exp (ln (Sn / S)) = Sn).
  { rewrite exp_ln by (apply Rdiv_lt_0_compat; easy). field. lra. }
  remember (ln (Sn / S)) as l eqn:El.
  assert (M : forall x y, x <= y -> S * exp x <= S * exp y).
  { intros x y [H|H]; [|subst; lra]. left. apply Rmult_lt_compat_l; [easy|]. now apply exp_increasing. }
  destruct (Rle_dec 0 l) as [Hl|Hl].
  - assert (S <= S * exp (u * l)) by (apply (Rle_trans _ (S * exp 0)); [rewrite exp_0; lra|apply M; nra]).
    assert (S * exp (u * l) <= Sn) by (apply (Rle_trans _ (S * exp l)); [apply M; nra|rewrite E; lra]).
    split. eapply Rle_trans; [apply Rmin_l|easy]. eapply Rle_trans; [eassumption|apply Rmax_r].
  - assert (S * exp (u * l) <= S) by (apply (Rle_trans _ (S * exp 0)); [apply M; nra|rewrite exp_0; lra]).
    assert (Sn <= S * exp (u * l)) by (apply (Rle_trans _ (S * exp l)); [rewrite E; lra|apply M; nra]).
    split. eapply Rle_trans; [apply Rmin_r|easy]. eapply Rle_trans; [eassumption|apply Rmax_l].
Qed.
End Gbm.

(** ** CIR steps *)
Section Cir.
Local Open Scope R_scope.

Lemma nmax_R : forall a b : R, nmax a b = Rmax a b.
Proof.
  intros. unfold nmax; cbn. destruct (Rlt_bool_spec a b); [rewrite Rmax_right|rewrite Rmax_left]; lra.
Qed.

Lemma cir_spec : forall V dt kappa theta sigma_v z : R,
  cir_update CIREuler V dt kappa theta sigma_v z = euler_step V dt kappa theta sigma_v z /\
  cir_update CIRMilstein V dt kappa theta sigma_v z = milstein_step V dt kappa theta sigma_v z.
Proof.
  intros. cbn [cir_update]. unfold cir_milstein, cir_euler, milstein_step, euler_step.
  cbv zeta. rewrite !nmax_R. unfold n0, n1, lit; cbn. split; lra.
Qed.

Lemma cir_defined : forall (disc : CIRDisc) (V dt kappa theta sigma_v z : R), 0 <= dt ->
  @cir_update _ Rpartial disc (Some V) (Some dt) (Some kappa) (Some theta) (Some sigma_v) (Some z) =
  Some (cir_update disc V dt kappa theta sigma_v z).
Proof.
  intros disc V dt kappa theta sigma_v z D.
  assert (E : @cir_euler _ Rpartial (Some V) (Some dt) (Some kappa) (Some theta) (Some sigma_v) (Some z) =
              Some (cir_euler V dt kappa theta sigma_v z)).
  { unfold cir_euler, nmax, n0; cbn. destruct (Rlt_bool_spec V 0); cbn.
    - rewrite Rlt_bool_false by nra. reflexivity.
    - rewrite Rlt_bool_false by nra. reflexivity. }
  destruct disc; [exact E|]. cbn [cir_update]. unfold cir_milstein. rewrite E.
  unfold lit, n1. cbn. rewrite Req_bool_false by lra. reflexivity.
Qed.

Lemma milstein_nonneg : forall V dt kappa theta sigma_v z, 0 <= V -> 0 <= dt -> 0 < kappa ->
  kappa * V <= kappa * theta - sigma_v * sigma_v / 4 ->
  0 <= milstein_step V dt kappa theta sigma_v z.
Proof.
  intros V dt kappa theta s z HV D K H. unfold milstein_step, euler_step.
  rewrite Rmax_left by easy. rewrite sqrt_mult by easy.
  pose proof (sqrt_sqrt V HV). pose proof (sqrt_sqrt dt D).
  set (a := sqrt V) in *. set (b := sqrt dt) in *.
  replace (V + kappa * (theta - V) * dt + s * (a * b) * z + s * s * dt / 4 * (z * z - 1))
    with ((a + s * b * z / 2) * (a + s * b * z / 2) + dt * (kappa * theta - kappa * V - s * s / 4)).
  - assert (0 <= dt * (kappa * theta - kappa * V - s * s / 4)) by (apply Rmult_le_pos; lra).
    pose proof (Rle_0_sqr (a + s * b * z / 2)). unfold Rsqr in *. lra.
  - rewrite <- H0, <- H1. field.
Qed.
End Cir.

(** ** Draws answered from a list *)
Section EnvList.
Local Open Scope R_scope.

Lemma draw_list : forall zs ns d g, gQuasi g = None -> (forall l, d <> DPoisson l) ->
  draw (env_list zs ns) d g =
    (Ok (nth (ndraws (gHist g)) zs 0), with_hist g (EvDraw (std_object d) :: gHist g)).
Proof.
  intros zs ns d g Q N. unfold draw. rewrite Q. cbv zeta. f_equal. f_equal.
  destruct d; try reflexivity. now specialize (N lambda).
Qed.

Lemma poisson_list : forall zs ns l g, gQuasi g = None ->
  draw_poisson (env_list zs ns) l g =
    (Ok (nth (ndraws (gHist g)) ns 0%Z), with_hist g (EvDraw (SPoisson l) :: gHist g)).
Proof. intros zs ns l g Q. unfold draw_poisson. rewrite Q. reflexivity. Qed.

Lemma skipn_nth_cons : forall {A} (l : list A) d n, (n < length l)%nat -> skipn n l = nth n l d :: skipn (S n) l.
Proof.
  intros A l d. induction l as [|a l IH]; intros [|n] L; cbn [length] in L; try lia; [reflexivity|].
  cbn [skipn nth]. rewrite IH by lia. destruct l; reflexivity.
Qed.

Lemma draws_list : forall zs ns k g n, gQuasi g = None -> ndraws (gHist g) = n -> (n + k <= length zs)%nat ->
  exists g', draws (env_list zs ns) (repeat DStdNormal k) g = (map Ok (firstn k (skipn n zs)), g').
Proof.
  intros zs ns. induction k as [|k IH]; intros g n Q N L.
  - exists g. reflexivity.
  - cbn [repeat draws]. rewrite draw_list by easy.
    destruct (IH (with_hist g (EvDraw (std_object DStdNormal) :: gHist g)) (S n)) as [g' E];
      [exact Q | unfold ndraws in *; cbn; now f_equal | lia |].
    rewrite E. exists g'. f_equal. rewrite N.
    rewrite (skipn_nth_cons zs 0 n) by lia. reflexivity.
Qed.
End EnvList.

(** ** On a pseudo-random generator every draw returns *)
Section Total.
Context {T : Type} {num : Num T}.
Variable env : Env T.

Definition total {A} (m : SM T A) : Prop := forall g, gQuasi g = None ->
  exists a g', m g = (Ok a, g') /\ gQuasi g' = None.

Lemma total_ret : forall {A} (a : A), total (sret a).
Proof. intros A a g Q. now exists a, g. Qed.
Lemma total_bind : forall {A B} (m : SM T A) (f : A -> SM T B),
  total m -> (forall a, total (f a)) -> total (sbind m f).
Proof.
  intros A B m f M F g Q. destruct (M g Q) as (a & g1 & E & Q1). destruct (F a g1 Q1) as (b & g2 & E2 & Q2).
  exists b, g2. split; [|easy]. unfold sbind. now rewrite E.
Qed.
Lemma total_draw : forall d, total (draw env d).
Proof. intros d g Q. unfold draw. rewrite Q. now do 2 eexists. Qed.
Lemma total_poisson : forall l, total (draw_poisson env l).
Proof. intros l g Q. unfold draw_poisson. rewrite Q. now do 2 eexists. Qed.
Lemma total_siter : forall {A} (body : Z -> A -> SM T A), (forall i a, total (body i a)) ->
  forall n i s, total (siter n i body s).
Proof.
  intros A body B. induction n as [|n IH]; intros i s; cbn [siter]; [apply total_ret|].
  apply total_bind; [apply B|]. intros. apply IH.
Qed.
Lemma total_sfor : forall {A} (body : Z -> A -> SM T A) n s, (forall i a, total (body i a)) ->
  (n <= INT_MAX)%Z -> total (sfor_int n body s).
Proof.
  intros A body n s B L. unfold sfor_int. destruct (Z.leb_spec n INT_MAX); [|lia]. now apply total_siter.
Qed.

(** What the distribution constructors check. *)
Definition dist_ok (d : Distr T) : bool :=
  match d with
  | DNormal _ s => negb (nleb s n0)
  | DStdNormal => negb (@nleb _ num n1 n0)
  | DPoisson l => negb (nleb l n0)
  | DExponential l => negb (nleb l n0)
  | DGamma a b => negb (nleb a n0) && negb (nleb b n0)
  | DUniform a b => negb (nleb b a)
  end.

Lemma new_dist_ok : forall d, dist_ok d = true -> total (new_dist d).
Proof.
  intros d E g Q. unfold new_dist, Distr_ctor. destruct d; cbn [dist_ok] in E;
    repeat match goal with |- context[nleb ?a ?b] => destruct (nleb a b) end; try discriminate;
    now do 2 eexists.
Qed.
Lemma new_dist_bad : forall d g, dist_ok d = false -> new_dist d g = (Throw InvalidArgument, g).
Proof.
  intros d g E. unfold new_dist, Distr_ctor. destruct d; cbn [dist_ok] in E;
    repeat match goal with |- context[nleb ?a ?b] => destruct (nleb a b) end; try discriminate; reflexivity.
Qed.

(** The distributions a model builds on entry. *)
Definition kind_dists (k : ModelKind T) (dt : T) : list (Distr T) :=
  match k with
  | MGBM | MHeston _ _ _ _ _ _ => [DStdNormal]
  | MBates _ _ _ _ _ lambda muJ sigmaJ _ => [DStdNormal; DPoisson (nmul lambda dt); DNormal muJ sigmaJ]
  | MKou lambda p eta1 eta2 _ =>
      [DStdNormal; DPoisson (nmul lambda dt); DUniform n0 n1; DExponential eta1; DExponential eta2]
  | MMerton lambda muJ sigmaJ => [DStdNormal; DPoisson (nmul lambda dt); DNormal muJ sigmaJ]
  | MVarianceGamma nu _ _ => [DStdNormal; DGamma (ndiv dt nu) nu]
  end.

Lemma news_step : forall {A} d (f : Distr T -> SM T A) g (b : bool), gQuasi g = None ->
  (forall g1, gQuasi g1 = None -> match b with
     | true => exists p g', f d g1 = (Ok p, g')
     | false => exists g', f d g1 = (Throw InvalidArgument, g') end) ->
  match dist_ok d && b with
  | true => exists p g', sbind (new_dist d) f g = (Ok p, g')
  | false => exists g', sbind (new_dist d) f g = (Throw InvalidArgument, g') end.
Proof.
  intros A d f g b Q F. unfold sbind. destruct (dist_ok d) eqn:E.
  - destruct (new_dist_ok d E g Q) as (a & g1 & N & Q1). rewrite N.
    assert (a = d). { revert N. unfold new_dist. destruct (Distr_ctor d); intros N; now inversion N. }
    subst a. cbn [andb]. apply F, Q1.
  - cbn [andb]. rewrite new_dist_bad by easy. now exists g.
Qed.
Lemma news_end : forall {A} (m : SM T A) g, gQuasi g = None -> total m ->
  match true with true => exists p g', m g = (Ok p, g') | false => exists g', m g = (Throw InvalidArgument, g') end.
Proof. intros A m g Q M. destruct (M g Q) as (a & g' & E & _). eauto. Qed.

Ltac ttac := repeat (first
  [ apply total_bind; [|intros] | apply total_draw | apply total_poisson | apply total_ret
  | apply total_siter; intros | apply total_sfor; [intros|lia]
  | match goal with |- total (let '(_, _) := ?p in _) => destruct p as [? ?] end
  | match goal with |- total (if ?b then _ else _) => destruct b end
  | match goal with |- total (match ?p with _ => _ end) => destruct p as [? ?] end
  | progress unfold kou_jump ]).

Lemma kind_outcome : forall k (d : StockData T) r t g, gQuasi g = None -> (gDim g <= INT_MAX)%Z ->
  if forallb dist_ok (kind_dists k (t / nofZ (gDim g))%num)
  then exists prices g', kind_prices env k d r t g = (Ok prices, g')
  else exists g', kind_prices env k d r t g = (Throw InvalidArgument, g').
Proof.
  intros k d r t g Q L.
  destruct k; cbn [kind_prices kind_dists forallb];
    unfold gbm_prices, heston_prices, bates_prices, kou_prices, merton_prices, vg_prices, getDim; cbv zeta;
    repeat (apply news_step; [easy|]; intros); (apply news_end; [easy|]); ttac.
Qed.

Lemma simulate_outcome : forall m (w : Market T) d t g, deref (mdStock m) w = Ok d ->
  gQuasi g = None -> (gDim g <= INT_MAX)%Z ->
  if forallb dist_ok (kind_dists (mdKind m) (t / nofZ (gDim g))%num)
  then exists prices g', simulatePrices env m w t g = (Ok prices, g')
  else exists g', simulatePrices env m w t g = (Throw InvalidArgument, g').
Proof.
  intros m w d t g D Q L. unfold simulatePrices. unfold sbind, slift. rewrite D.
  now apply kind_outcome.
Qed.
End Total.

(** ** The draws of a Variance Gamma path *)
Section Vg.
Context {T : Type} {num : Num T}.
Variable env : Env T.

Definition vg_steps (shape scale : T) (n : nat) : list (Ev T) :=
  concat (repeat [EvDraw (SNormal n0 n1); EvDraw (SGamma shape scale)] n).

Lemma vg_history : forall nu theta omega (d : StockData T) r t g prices g', gQuasi g = None ->
  vg_prices env nu theta omega d r t g = (Ok prices, g') ->
  gHist g' = vg_steps (t / nofZ (gDim g) / nu)%num (n1 / nu)%num (Z.to_nat (gDim g)) ++
             EvNew (SGamma (t / nofZ (gDim g) / nu)%num (n1 / nu)%num) :: EvNew (SNormal n0 n1) :: gHist g.
Proof.
  intros nu theta omega d r t g prices g' Q E. unfold vg_prices in E. cbv zeta in E. sok.
  assert (N : forall d h a h', new_dist d h = (Ok a, h') ->
    a = d /\ gQuasi h' = gQuasi h /\ gHist h' = EvNew (std_object d) :: gHist h).
  { unfold new_dist. intros dd h aa h' H. destruct (Distr_ctor dd); try discriminate. now injection H as <- <-. }
  match goal with H : new_dist DStdNormal _ = _ |- _ => apply N in H; destruct H as (-> & Q1 & H1) end.
  match goal with H : new_dist (DGamma _ _) _ = _ |- _ => apply N in H; destruct H as (-> & Q2 & H2) end.
  unfold getDim in *. rewrite H1 in H2. cbn [std_object] in H2. rewrite Q1, Q in Q2.
  match goal with H : sfor_int _ _ _ ?h = _ |- _ =>
    eapply (sfor_ok (fun k _ h' => gQuasi h' = None /\
      gHist h' = vg_steps (t / nofZ (gDim g) / nu)%num (n1 / nu)%num k ++ gHist h)) in H end.
  - match goal with H : (_ /\ _) /\ _ |- _ => destruct H as [[_ R] _] end. now rewrite R, H2.
  - intros k j [S p] h s' h' [Qh Hh] B. sok. unfold draw in *. rewrite Qh in *.
    match goal with H : (_, _) = (Ok _, _) |- _ => injection H as <- <- end.
    unfold with_hist in *. cbn [gQuasi gHist] in *. rewrite Qh in *.
    match goal with H : (_, _) = (Ok _, _) |- _ => injection H as <- <- end.
    cbn [gQuasi gHist]. split; [easy|]. rewrite Hh. reflexivity.
  - split; [easy|reflexivity].
Qed.
End Vg.
