(** Payoffs of lognormal prices built step by step from normal draws. *)
From Coq Require Import String List ZArith Reals Bool Lra Lia.
From Coquelicot Require Import Coquelicot.
From Flocq Require Import Core.
From Verif Require Import M_Num M_Outcome M_Dict M_Stock M_Market M_Payoff M_Option M_Random M_Model
  S_Market S_Model S_Prob S_Option S_MonteCarlo S_Expect S_Normal L_Gauss L_Martingale L_Expect L_Sampler L_Growth L_Normal.
Import ListNotations.
Local Open Scope R_scope.

(** Functions of a mean and a variance that absorb a normal increment. *)
Definition absorbs (W : R -> R -> R) : Prop :=
  forall m s2 c, 0 <= s2 -> 0 < c -> is_Enormal (fun z => W (m + c * z) s2) (W m (s2 + c * c)).

Definition moment (p m s2 : R) : R := exp (p * m + p * p * s2 / 2).
Lemma moment_absorbs : forall p, absorbs (moment p).
Proof.
  intros p m s2 c H C. unfold moment. pose proof (Enormal_exp 1 (p * m + p * p * s2 / 2) (p * c)) as E.
  rewrite Rmult_1_l in E. replace (p * m + p * p * (s2 + c * c) / 2) with (p * m + p * p * s2 / 2 + p * c * (p * c) / 2) by field.
  eapply is_Enormal_ext; [|exact E]. intros z. cbn. rewrite Rmult_1_l. f_equal. ring.
Qed.

Definition steps_at (ind : R -> R) (k : R) : Prop := (forall x, k < x -> ind x = 1) /\ (forall x, x < k -> ind x = 0).
Definition tail (p : R) (ind : R -> R) (k m s2 : R) : R :=
  if Req_EM_T s2 0 then exp (p * m) * ind m else moment p m s2 * Phi ((m - k + p * s2) / sqrt s2).
Lemma tail_absorbs : forall p ind k, steps_at ind k -> absorbs (tail p ind k).
Proof.
  intros p ind k (I1 & I0) m s2 c H C. unfold tail. destruct (Req_EM_T (s2 + c * c) 0) as [Z|_]; [nra|].
  destruct (Req_EM_T s2 0) as [->|N].
  - rewrite Rplus_0_l, sqrt_square by lra.
    replace (moment p m (c * c)) with (1 * exp (p * m + p * c * (p * c) / 2)) by (unfold moment; rewrite Rmult_1_l; f_equal; field).
    replace ((m - k + p * (c * c)) / c) with (- ((k - m) / c - p * c)) by (field; lra).
    eapply is_Enormal_ext; [|apply (Enormal_tilt (fun z => ind (m + c * z))); apply Enormal_half].
    + intros z. cbn. rewrite Rmult_1_l. f_equal. f_equal. ring.
    + intros z Z. apply I1. apply (Rmult_lt_compat_l c) in Z; [|easy].
      replace (c * ((k - m) / c - p * c)) with (k - m - c * (p * c)) in Z by (field; lra). lra.
    + intros z Z. apply I0. apply (Rmult_lt_compat_l c) in Z; [|easy].
      replace (c * ((k - m) / c - p * c)) with (k - m - c * (p * c)) in Z by (field; lra). lra.
  - assert (S0 : 0 < sqrt s2) by (apply sqrt_lt_R0; lra). assert (SS : sqrt s2 * sqrt s2 = s2) by now apply sqrt_sqrt.
    set (s := sqrt s2) in *.
    replace (moment p m (s2 + c * c)) with (1 * exp (p * m + p * p * s2 / 2 + p * c * (p * c) / 2)) by (unfold moment; rewrite Rmult_1_l; f_equal; field).
    assert (Q : sqrt (s2 + c * c) = s * sqrt (1 + c / s * (c / s))).
    { transitivity (sqrt (s * s * (1 + c / s * (c / s)))).
      - f_equal. rewrite <- SS at 1. field. lra.
      - rewrite sqrt_mult by nra. now rewrite sqrt_square by lra. }
    assert (Q0 : 0 < sqrt (1 + c / s * (c / s))) by apply q_ge.
    replace ((m - k + p * (s2 + c * c)) / sqrt (s2 + c * c)) with (((m - k + p * s2) / s + c / s * (p * c)) / sqrt (1 + c / s * (c / s))).
    + eapply is_Enormal_ext; [|apply (Enormal_tilt (fun z => Phi ((m - k + p * s2) / s + c / s * z)))].
      * intros z. cbn. rewrite Rmult_1_l. unfold moment. f_equal; f_equal; [field|field; lra].
      * eapply is_Enormal_ext; [|apply Enormal_Phi]. intros z. cbn. f_equal. ring.
    + rewrite Q. field. lra.
Qed.

Section Iterate.
Context {X : Type} (body : X -> sampler X) (next : X -> R -> X) (good : X -> Prop).
Hypothesis body_ok : forall Y x (k : X -> sampler Y) f h m, good x ->
  (forall z, is_E (k (next x z)) f (h z)) -> is_Enormal h m -> is_E (pbind (body x) k) f m.
Hypothesis next_good : forall x z, good x -> good (next x z).
Variables (M : nat -> X -> R) (c : nat -> R).
Hypothesis c_pos : forall k, 0 < c k.
Hypothesis M_next : forall k x z, good x -> M k (next x z) = M (S k) x + c k * z.

Fixpoint var (k : nat) : R := match k with O => 0 | S k' => var k' + c k' * c k' end.
Lemma var_nonneg : forall k, 0 <= var k.
Proof. induction k as [|k IH]; cbn; [lra|]. pose proof (c_pos k). nra. Qed.
Lemma var_pos : forall k, (0 < k)%nat -> 0 < var k.
Proof. intros [|k] H; [lia|]. cbn. pose proof (var_nonneg k). pose proof (c_pos k). nra. Qed.

Lemma iter_absorb : forall W, absorbs W -> forall n x, good x ->
  is_E (piter n body x) (fun y => W (M 0%nat y) 0) (W (M n x) (var n)).
Proof.
  intros W A n. induction n as [|n IH]; intros x G; cbn [piter var]; [reflexivity|].
  apply (body_ok _ x _ _ (fun z => W (M (S n) x + c n * z) (var n))); [easy| |].
  - intros z. rewrite <- M_next by easy. apply IH. now apply next_good.
  - apply A; [apply var_nonneg|apply c_pos].
Qed.
End Iterate.

Lemma ln_lt_iff : forall K x, 0 < K -> (ln K < x <-> K < exp x).
Proof.
  intros K x H. split; intros L.
  - rewrite <- (exp_ln K H). now apply exp_increasing.
  - rewrite <- (ln_exp x). now apply ln_increasing.
Qed.
Lemma lt_ln_iff : forall K x, 0 < K -> (x < ln K <-> exp x < K).
Proof.
  intros K x H. split; intros L.
  - rewrite <- (exp_ln K H). now apply exp_increasing.
  - rewrite <- (ln_exp x). apply ln_increasing; [apply exp_pos|easy].
Qed.

Definition above (K x : R) : R := if Rlt_dec K (exp x) then 1 else 0.
Definition at_least (K x : R) : R := if Rle_dec K (exp x) then 1 else 0.
Lemma above_steps : forall K, 0 < K -> steps_at (above K) (ln K).
Proof.
  intros K H. unfold above. split; intros x L.
  - apply ln_lt_iff in L; [|easy]. destruct (Rlt_dec K (exp x)); [easy|lra].
  - apply lt_ln_iff in L; [|easy]. destruct (Rlt_dec K (exp x)); [lra|easy].
Qed.
Lemma at_least_steps : forall K, 0 < K -> steps_at (at_least K) (ln K).
Proof.
  intros K H. unfold at_least. split; intros x L.
  - apply ln_lt_iff in L; [|easy]. destruct (Rle_dec K (exp x)); [easy|lra].
  - apply lt_ln_iff in L; [|easy]. destruct (Rle_dec K (exp x)); [lra|easy].
Qed.

(** From the tails to the payoffs. *)
Lemma payoff_mean : forall {A} (q : sampler A) (Y : A -> R) m s2, 0 < s2 ->
  (forall W, absorbs W -> is_E q (fun a => W (Y a) 0) (W m s2)) ->
  forall pay, positive_strikes pay ->
  is_E q (fun a => terminal pay (exp (Y a))) (lognormal_payoff pay (exp (m + s2 / 2)) (sqrt s2)).
Proof.
  intros A q Y m s2 S H pay K.
  assert (S0 : 0 < sqrt s2) by now apply sqrt_lt_R0. assert (SS : sqrt s2 * sqrt s2 = s2) by (apply sqrt_sqrt; lra).
  set (v := sqrt s2) in *.
  assert (T : forall p ind k, steps_at ind k -> is_E q (fun a => exp (p * Y a) * ind (Y a)) (moment p m s2 * Phi ((m - k + p * s2) / v))).
  { intros p ind k I. pose proof (H _ (tail_absorbs p ind k I)) as E. unfold tail in E.
    destruct (Req_EM_T 0 0) as [_|N]; [|easy]. destruct (Req_EM_T s2 0) as [Z|_]; [lra|]. exact E. }
  assert (T0 : forall ind k, steps_at ind k -> is_E q (fun a => ind (Y a)) (Phi ((m - k) / v))).
  { intros ind k I. pose proof (T 0 ind k I) as E. unfold moment in E. replace (0 * m + 0 * 0 * s2 / 2) with 0 in E by field.
    rewrite exp_0, Rmult_1_l, Rmult_0_l, Rplus_0_r in E. eapply E_ext; [|exact E]. intros a. cbn. rewrite Rmult_0_l, exp_0. ring. }
  assert (T1 : forall ind k, steps_at ind k -> is_E q (fun a => exp (Y a) * ind (Y a)) (exp (m + s2 / 2) * Phi ((m - k + s2) / v))).
  { intros ind k I. pose proof (T 1 ind k I) as E. unfold moment in E. replace (1 * m + 1 * 1 * s2 / 2) with (m + s2 / 2) in E by field.
    rewrite Rmult_1_l in E. eapply E_ext; [|exact E]. intros a. cbn. now rewrite Rmult_1_l. }
  assert (M1 : is_E q (fun a => exp (Y a)) (exp (m + s2 / 2))).
  { pose proof (H _ (moment_absorbs 1)) as E. unfold moment in E. replace (1 * m + 1 * 1 * s2 / 2) with (m + s2 / 2) in E by field.
    eapply E_ext; [|exact E]. intros a. cbn. f_equal. field. }
  assert (M0 : is_E q (fun a => 1) 1).
  { pose proof (H _ (moment_absorbs 0)) as E. unfold moment in E. replace (0 * m + 0 * 0 * s2 / 2) with 0 in E by field.
    rewrite exp_0 in E. eapply E_ext; [|exact E]. intros a. cbn. replace (0 * Y a + 0 * 0 * 0 / 2) with 0 by field. apply exp_0. }
  assert (D2 : forall k, 0 < k -> black_d2 (exp (m + s2 / 2)) k v = (m - ln k) / v).
  { intros k Hk. unfold black_d2, black_d1. rewrite ln_div by (try apply exp_pos; easy). rewrite ln_exp, SS. rewrite <- SS. field. lra. }
  assert (D1 : forall k, 0 < k -> black_d1 (exp (m + s2 / 2)) k v = (m - ln k + s2) / v).
  { intros k Hk. unfold black_d1. rewrite ln_div by (try apply exp_pos; easy). rewrite ln_exp, SS. field. lra. }
  assert (CALL : forall k, 0 < k -> is_E q (fun a => Rmax (exp (Y a) - k) 0) (black_call (exp (m + s2 / 2)) k v)).
  { intros k Hk. unfold black_call. rewrite D1, D2 by easy.
    pose proof (E_lin _ _ _ _ _ 1 (- k) (T1 _ _ (above_steps k Hk)) (T0 _ _ (above_steps k Hk))) as E.
    replace (exp (m + s2 / 2) * Phi ((m - ln k + s2) / v) - k * Phi ((m - ln k) / v))
      with (1 * (exp (m + s2 / 2) * Phi ((m - ln k + s2) / v)) + - k * Phi ((m - ln k) / v)) by ring.
    eapply E_ext; [|exact E]. intros a. cbn. unfold above. destruct (Rlt_dec k (exp (Y a))); [rewrite Rmax_left|rewrite Rmax_right]; lra. }
  destruct pay as [ty k|ty k|KL KU|ty]; cbn [positive_strikes] in K; [| | |easy].
  - destruct (PayoffType_eqb ty Call) eqn:Et.
    + destruct ty; try discriminate. cbn. now apply CALL.
    + replace (lognormal_payoff (PVanilla ty k) (exp (m + s2 / 2)) v) with (black_put (exp (m + s2 / 2)) k v) by (destruct ty; easy).
      pose proof (E_lin _ _ _ _ _ 1 1 (CALL k K) (E_lin _ _ _ _ _ k (-1) M0 M1)) as E.
      replace (black_put (exp (m + s2 / 2)) k v) with (1 * black_call (exp (m + s2 / 2)) k v + 1 * (k * 1 + -1 * exp (m + s2 / 2)))
        by (unfold black_put, black_call; rewrite !Phi_opp; ring).
      eapply E_ext; [|exact E]. intros a. replace (terminal (PVanilla ty k) (exp (Y a))) with (Rmax (k - exp (Y a)) 0) by (destruct ty; easy).
      cbn. unfold Rmax. destruct (Rle_dec (exp (Y a) - k) 0), (Rle_dec (k - exp (Y a)) 0); lra.
  - destruct (PayoffType_eqb ty Call) eqn:Et.
    + destruct ty; try discriminate. cbn. rewrite D2 by easy. eapply E_ext; [|apply (T0 _ _ (above_steps k K))]. reflexivity.
    + replace (lognormal_payoff (PDigital ty k) (exp (m + s2 / 2)) v) with (Phi (- black_d2 (exp (m + s2 / 2)) k v)) by (destruct ty; easy).
      rewrite D2, Phi_opp by easy.
      pose proof (E_lin _ _ _ _ _ 1 (-1) M0 (T0 _ _ (at_least_steps k K))) as E.
      replace (1 - Phi ((m - ln k) / v)) with (1 * 1 + -1 * Phi ((m - ln k) / v)) by ring.
      eapply E_ext; [|exact E]. intros a. replace (terminal (PDigital ty k) (exp (Y a))) with (if Rlt_dec (exp (Y a)) k then 1 else 0) by (destruct ty; easy).
      cbn. unfold at_least. destruct (Rle_dec k (exp (Y a))), (Rlt_dec (exp (Y a)) k); lra.
  - destruct K as [K1 K2]. cbn [lognormal_payoff]. destruct (Rle_dec KL KU) as [O|O].
    + rewrite !D2 by easy. pose proof (E_lin _ _ _ _ _ 1 (-1) (T0 _ _ (at_least_steps KL K1)) (T0 _ _ (above_steps KU K2))) as E.
      replace (Phi ((m - ln KL) / v) - Phi ((m - ln KU) / v)) with (1 * Phi ((m - ln KL) / v) + -1 * Phi ((m - ln KU) / v)) by ring.
      eapply E_ext; [|exact E]. intros a. cbn. unfold above, at_least.
      destruct (Rle_dec KL (exp (Y a))), (Rlt_dec KU (exp (Y a))), (Rle_dec (exp (Y a)) KU); lra.
    + pose proof (E_scal _ _ _ 0 M0) as E. rewrite Rmult_0_l in E. eapply E_ext; [|exact E]. intros a. cbn.
      destruct (Rle_dec KL (exp (Y a))), (Rle_dec (exp (Y a)) KU); lra.
Qed.

(** ** Geometric Brownian motion *)
Section GBM.
Variables (d : StockData R) (r t : R) (n : Z).
Let dt := t / IZR n.
Let a := (r - dividend d - getSigma d * getSigma d / 2) * dt.
Let b := getSigma d * sqrt dt.
Let body := record (fun S : R => S) (gbm_step d r t n).
Definition gbm_next (st : R * list R) (z : R) : R * list R :=
  let S' := fst st * exp (a + b * z) in (S', snd st ++ [S']).

Lemma gbm_body : forall Y st (k : R * list R -> sampler Y) f h m,
  (forall z, is_E (k (gbm_next st z)) f (h z)) -> is_Enormal h m -> is_E (pbind (body st) k) f m.
Proof.
  intros Y st k f h m H N. unfold body, record, gbm_step. apply E_assoc. apply E_assoc. cbn [pbind pdraw].
  exists h. split.
  - intros z _. specialize (H z). unfold gbm_next in H. unfold a, b, dt in H. rewrite coupon_dividend, half_R.
    replace (r - dividend d - / 2 * getSigma d * getSigma d) with (r - dividend d - getSigma d * getSigma d / 2) by field. exact H.
  - cbn. eapply is_Enormal_ext; [|exact N]. intros z. cbn. f_equal. ring.
Qed.

Lemma gbm_always : forall (P : R * list R -> Prop) , (forall st z, P st -> P (gbm_next st z)) ->
  forall k st, P st -> always P (piter k body st).
Proof.
  intros P H k. induction k as [|k IH]; intros st G; cbn [piter]; [exact G|].
  apply (always_bind _ P); [|exact IH].
  unfold body, record, gbm_step. apply (always_bind _ (fun S => P (S, snd st ++ [S]))); [|easy].
  cbn [pbind pdraw always]. intros z. pose proof (H st z G) as G'. unfold gbm_next in G'. unfold a, b, dt in G'.
  rewrite coupon_dividend, half_R.
  replace (r - dividend d - / 2 * getSigma d * getSigma d) with (r - dividend d - getSigma d * getSigma d / 2) by field. exact G'.
Qed.

Hypothesis sigma0 : 0 < getSigma d.
Hypothesis dt0 : 0 < dt.
Lemma b_pos : 0 < b.
Proof. apply Rmult_lt_0_compat; [easy|now apply sqrt_lt_R0]. Qed.

Definition live (st : R * list R) : Prop := 0 < fst st.
Lemma live_next : forall st z, live st -> live (gbm_next st z).
Proof. intros st z G. unfold live. cbn. apply Rmult_lt_0_compat; [exact G|apply exp_pos]. Qed.

(** The terminal price. *)
Definition Mend (k : nat) (st : R * list R) : R := ln (fst st) + INR k * a.
Lemma Mend_next : forall k st z, live st -> Mend k (gbm_next st z) = Mend (S k) st + b * z.
Proof.
  intros k st z G. unfold Mend. cbn [fst gbm_next]. rewrite ln_mult by (try apply exp_pos; exact G). rewrite ln_exp, S_INR. ring.
Qed.
Lemma var_const : forall k c, var (fun _ => c) k = INR k * (c * c).
Proof. intros k c. induction k as [|k IH]; [cbn; ring|]. cbn [var]. rewrite IH, S_INR. ring. Qed.

Lemma gbm_end : forall k S pay, (0 < k)%nat -> 0 < S -> positive_strikes pay ->
  is_E (piter k body (S, [])) (fun st => terminal pay (last (snd st) 0))
    (lognormal_payoff pay (S * exp ((r - dividend d) * (INR k * dt))) (getSigma d * sqrt (INR k * dt))).
Proof.
  intros k S pay K HS P. assert (K0 : 0 < INR k) by (apply lt_0_INR; easy).
  assert (V : 0 < var (fun _ => b) k) by (apply var_pos; [intros; apply b_pos|easy]).
  pose proof (payoff_mean (piter k body (S, [])) (Mend 0) (Mend k (S, [])) (var (fun _ => b) k) V
    (fun W A => iter_absorb body gbm_next live (fun Y x k' f h m _ => gbm_body Y x k' f h m) live_next Mend (fun _ => b)
       (fun _ => b_pos) Mend_next W A k (S, []) HS) pay P) as E.
  pose proof (sqrt_sqrt dt ltac:(lra)) as SD.
  assert (BB : b * b = getSigma d * getSigma d * dt) by (unfold b; nra).
  replace (S * exp ((r - dividend d) * (INR k * dt))) with (exp (Mend k (S, []) + var (fun _ => b) k / 2)).
  2:{ rewrite var_const, BB. unfold Mend. cbn [fst]. rewrite <- (exp_ln S) at 2 by easy. rewrite <- exp_plus. f_equal. unfold a. field. }
  replace (getSigma d * sqrt (INR k * dt)) with (sqrt (var (fun _ => b) k)).
  2:{ rewrite var_const, BB. replace (INR k * (getSigma d * getSigma d * dt)) with ((getSigma d * getSigma d) * (INR k * dt)) by ring.
      rewrite sqrt_mult by nra. rewrite sqrt_square by lra. reflexivity. }
  eapply E_ext_on; [|exact E]. destruct k as [|k]; [lia|]. cbn [piter].
  assert (L : forall j st, live st /\ last (snd st) 0 = fst st -> always (fun st => live st /\ last (snd st) 0 = fst st) (piter j body st)).
  { intros j. apply gbm_always. intros st z [G _]. split; [now apply live_next|]. cbn. now rewrite last_last. }
  unfold body at 2. unfold record, gbm_step. cbn [pbind pdraw always]. intros z.
  eapply always_impl; [|apply L].
  - intros st [G E']. unfold Mend. cbn. rewrite Rmult_0_l, Rplus_0_r, exp_ln by exact G. now rewrite E'.
  - split; [|reflexivity]. unfold live. cbn [fst snd]. apply Rmult_lt_0_compat; [easy|apply exp_pos].
Qed.

(** The geometric mean. *)
Variable N : nat.
Hypothesis N0 : (0 < N)%nat.
Definition tri (k : nat) : R := INR k * (INR k + 1) / 2.
Definition Mgeo (k : nat) (st : R * list R) : R := (Rsum (map ln (snd st)) + INR k * ln (fst st) + tri k * a) / INR N.
Lemma Rsum_app1 : forall l x, Rsum (l ++ [x]) = Rsum l + x.
Proof. intros l x. unfold Rsum. induction l as [|y l IH]; cbn; [ring|]. rewrite IH. ring. Qed.
Lemma Mgeo_next : forall k st z, live st -> Mgeo k (gbm_next st z) = Mgeo (S k) st + INR (S k) * b / INR N * z.
Proof.
  intros k st z G. assert (INR N <> 0) by (apply not_0_INR; lia).
  unfold Mgeo. cbn [fst snd gbm_next]. rewrite map_app. cbn [map]. rewrite Rsum_app1, ln_mult by (try apply exp_pos; exact G).
  rewrite ln_exp. unfold tri. rewrite S_INR. field. easy.
Qed.
Lemma geo_c : forall k, 0 < INR (S k) * b / INR N.
Proof. intros k. apply Rdiv_lt_0_compat; [|apply lt_0_INR; easy]. apply Rmult_lt_0_compat; [apply lt_0_INR; lia|apply b_pos]. Qed.
Lemma var_geo : forall k, var (fun k => INR (S k) * b / INR N) k = b * b / (INR N * INR N) * (INR k * (INR k + 1) * (2 * INR k + 1) / 6).
Proof.
  assert (INR N <> 0) by (apply not_0_INR; lia).
  intros k. induction k as [|k IH]; [cbn; field; easy|]. cbn [var]. rewrite IH, S_INR. field. easy.
Qed.

Lemma gbm_geo : forall S pay, 0 < S -> positive_strikes pay ->
  let u := dt * (INR N + 1) / 2 in
  let q := dt * (INR N + 1) * (2 * INR N + 1) / (6 * INR N) in
  is_E (piter N body (S, [])) (fun st => terminal pay (geometric_mean (snd st)))
    (lognormal_payoff pay (S * exp ((r - dividend d - getSigma d * getSigma d / 2) * u + getSigma d * getSigma d * q / 2)) (getSigma d * sqrt q)).
Proof.
  intros S pay HS P u q. assert (K0 : 0 < INR N) by (apply lt_0_INR; easy).
  set (c := fun k => INR (Datatypes.S k) * b / INR N).
  assert (V : 0 < var c N) by (apply var_pos; [intros; apply geo_c|easy]).
  pose proof (payoff_mean (piter N body (S, [])) (Mgeo 0) (Mgeo N (S, [])) (var c N) V
    (fun W A => iter_absorb body gbm_next live (fun Y x k' f h m _ => gbm_body Y x k' f h m) live_next Mgeo c
       geo_c Mgeo_next W A N (S, []) HS) pay P) as E.
  pose proof (sqrt_sqrt dt ltac:(lra)) as SD.
  assert (BB : b * b = getSigma d * getSigma d * dt) by (unfold b; nra).
  assert (Q : 0 < q) by (unfold q; apply Rdiv_lt_0_compat; [|lra]; apply Rmult_lt_0_compat; [apply Rmult_lt_0_compat|]; lra).
  assert (VV : var c N = getSigma d * getSigma d * q) by (unfold c; rewrite var_geo, BB; unfold q; field; lra).
  rewrite VV in E.
  replace (S * exp ((r - dividend d - getSigma d * getSigma d / 2) * u + getSigma d * getSigma d * q / 2))
    with (exp (Mgeo N (S, []) + getSigma d * getSigma d * q / 2)).
  2:{ rewrite <- (exp_ln S) at 2 by easy. rewrite <- exp_plus. f_equal. unfold Mgeo, tri, u. cbn. unfold a. field. lra. }
  rewrite (sqrt_mult (getSigma d * getSigma d) q), sqrt_square in E by nra.
  eapply E_ext_on; [|exact E].
  assert (L : forall j st, always (fun st' => length (snd st') = (length (snd st) + j)%nat) (piter j body st)).
  { intros j. induction j as [|j IH]; intros st; cbn [piter]; [cbn; lia|].
    apply (always_bind _ (fun st' => length (snd st') = Datatypes.S (length (snd st)))).
    - unfold body, record. apply (always_bind _ (fun _ => True)); [now apply always_true|]. intros y _. cbn. rewrite app_length. cbn. lia.
    - intros st' E'. eapply always_impl; [|apply IH]. intros x X. cbn in X. rewrite X, E'. lia. }
  eapply always_impl; [|apply (L N)]. intros st Hl. cbn in Hl. f_equal. unfold geometric_mean, Mgeo, Rmean, tri. cbn.
  rewrite map_length, Hl. f_equal. field. lra.
Qed.
End GBM.
