(** Means over evenly spread numbers against expectations. *)
From Coq Require Import String List ZArith Bool Lia Reals Lra.
From Flocq Require Import Core.
From Coquelicot Require Import Coquelicot.
From Verif Require Import M_Num M_Outcome M_Stock M_Market M_Payoff M_Option M_Random M_Model
  S_Prob S_Normal S_Expect S_MonteCarlo S_Model S_Discrepancy
  L_MonteCarlo L_Gauss L_Expect L_Sampler L_Lognormal L_Merton L_Normal L_Quasi L_Accuracy P_Accuracy.
Import ListNotations.
Local Open Scope R_scope.


Lemma Rmean_ext : forall {A} (u v : A -> R) l, (forall x, In x l -> u x = v x) -> Rmean (map u l) = Rmean (map v l).
Proof. intros A u v l H. f_equal. now apply map_ext_in. Qed.
Lemma Rmean_scal : forall {A} c (u : A -> R) l, Rmean (map (fun x => c * u x) l) = c * Rmean (map u l).
Proof.
  intros A c u l. unfold Rmean. rewrite !map_length.
  replace (Rsum (map (fun x => c * u x) l)) with (c * Rsum (map u l)); [unfold Rdiv; ring|].
  induction l; cbn; [lra|]. fold (Rsum (map u l)) (Rsum (map (fun x => c * u x) l)). lra.
Qed.
Lemma Rmean_unit : forall {A} (u : A -> R) l, l <> [] -> (forall x, In x l -> 0 <= u x <= 1) -> 0 <= Rmean (map u l) <= 1.
Proof.
  intros A u l N H. apply Rmean_bounds; [now destruct l|]. intros y I. apply in_map_iff in I. destruct I as (x & <- & I). now apply H.
Qed.

(** Items of any kind: each carries a number [num a] and approximates its normal quantile by [q a],
    up to [e] in probability. *)
Section Spread.
Context {Item : Type}.
Variables (items : list Item) (num q : Item -> R) (D e : R).
Hypothesis NE : items <> [].
Hypothesis ACC : forall a, In a items -> Rabs (Phi (q a) - num a) <= e.
Hypothesis DISC : discrepancy_at_most (map num items) D.

Lemma D_nonneg : 0 <= D.
Proof. pose proof (DISC 0 ltac:(lra)) as H. pose proof (Rabs_pos (share_below (map num items) 0 - 0)). lra. Qed.
Lemma e_nonneg : 0 <= e.
Proof. clear DISC. destruct items as [|a l]; [easy|]. pose proof (ACC a (or_introl eq_refl)). pose proof (Rabs_pos (Phi (q a) - num a)). lra. Qed.
Lemma share_unit : forall t, 0 <= share_below (map num items) t <= 1.
Proof. intros t. unfold share_below. rewrite map_map. apply Rmean_unit; [easy|]. intros u _. destruct (Rlt_dec (num u) t); lra. Qed.
Lemma share_low : forall t, t <= 1 -> t - D <= share_below (map num items) t.
Proof.
  intros t T. pose proof D_nonneg. destruct (Rle_dec 0 t) as [P|P].
  - pose proof (DISC t (conj P T)) as H0. apply Rabs_le_between in H0. lra.
  - pose proof (share_unit t). lra.
Qed.
Lemma share_high : forall t, 0 <= t -> share_below (map num items) t <= t + D.
Proof.
  intros t T. pose proof D_nonneg. destruct (Rle_dec t 1) as [P|P].
  - pose proof (DISC t (conj T P)) as H0. apply Rabs_le_between in H0. lra.
  - pose proof (share_unit t). lra.
Qed.
Definition up_to (t : R) : R := Rmean (map (fun a => if Rle_dec (num a) t then 1 else 0) items).
Lemma up_to_high : forall t, 0 <= t -> up_to t <= t + D.
Proof.
  intros t T. apply le_epsilon. intros h E. apply (Rle_trans _ (share_below (map num items) (t + h))).
  - unfold share_below. rewrite map_map. apply Rmean_le; [easy|]. intros u _. destruct (Rle_dec (num u) t), (Rlt_dec (num u) (t + h)); lra.
  - pose proof (share_high (t + h) ltac:(lra)). lra.
Qed.

Lemma q_low : forall a z, In a items -> num a < Phi z - e -> q a < z.
Proof.
  intros a z I H. pose proof (ACC a I) as B. apply Rabs_le_between in B.
  apply Rnot_le_lt. intros [L|L]; [pose proof (Phi_incr z (q a) L)|rewrite L in H]; lra.
Qed.
Lemma q_high : forall a z, In a items -> Phi z + e < num a -> z < q a.
Proof.
  intros a z I H. pose proof (ACC a I) as B. apply Rabs_le_between in B.
  apply Rnot_le_lt. intros [L|L]; [pose proof (Phi_incr (q a) z L)|rewrite <- L in H]; lra.
Qed.

(** The share of the quantiles below a level, or up to it. *)
Lemma share_quantiles : forall z,
  Rabs (Rmean (map (fun a => if Rlt_dec (q a) z then 1 else 0) items) - Phi z) <= D + e /\
  Rabs (Rmean (map (fun a => if Rle_dec (q a) z then 1 else 0) items) - Phi z) <= D + e.
Proof.
  intros z. set (a := Rmean (map (fun u => if Rlt_dec (q u) z then 1 else 0) items)). set (b := Rmean (map (fun u => if Rle_dec (q u) z then 1 else 0) items)).
  pose proof (Phi_strict z) as P. pose proof e_nonneg as E0.
  assert (L : Phi z - e - D <= a).
  { apply (Rle_trans _ (share_below (map num items) (Phi z - e))); [apply share_low; lra|]. unfold share_below. rewrite map_map.
    apply Rmean_le; [easy|]. intros u I. destruct (Rlt_dec (num u) (Phi z - e)) as [H|H]; [pose proof (q_low u z I H)|]; destruct (Rlt_dec (q u) z); lra. }
  assert (M : a <= b) by (apply Rmean_le; [easy|]; intros u _; destruct (Rlt_dec (q u) z), (Rle_dec (q u) z); lra).
  assert (U : b <= Phi z + e + D).
  { apply (Rle_trans _ (up_to (Phi z + e))); [|apply up_to_high; lra].
    apply Rmean_le; [easy|]. intros u I. destruct (Rle_dec (num u) (Phi z + e)) as [H|H]; [|pose proof (q_high u z I ltac:(lra))]; destruct (Rle_dec (q u) z); lra. }
  split; apply Rabs_le_between; lra.
Qed.
End Spread.

(** ** A put as many digital puts *)
Fixpoint staircase (h : R) (m : nat) (x : R) : R :=
  match m with
  | O => 0
  | S m' => staircase h m' x + h * (if Rlt_dec x (INR m * h) then 1 else 0)
  end.
Lemma staircase_close : forall h, 0 < h -> forall m x, 0 < x -> Rabs (Rmax (INR m * h - x) 0 - staircase h m x) <= h.
Proof.
  intros h H m x X. 
  enough (G : Rmax (INR m * h - x) 0 <= staircase h m x <= Rmax (INR m * h - x) 0 + h /\ (INR m * h <= x -> staircase h m x = 0)).
  { apply Rabs_le_between. lra. }
  induction m as [|m (IH & Z)].
  - cbn [staircase INR]. rewrite Rmax_right by lra. split; [lra|easy].
  - cbn [staircase]. rewrite S_INR in *. destruct (Rlt_dec x ((INR m + 1) * h)) as [L|L].
    + split; [|lra]. rewrite (Rmax_left ((INR m + 1) * h - x)) by lra. destruct (Rle_dec (INR m * h) x) as [Q|Q].
      * rewrite (Z Q). lra.
      * rewrite Rmax_left in IH by lra. lra.
    + rewrite Z by lra. split; [|intros; ring]. rewrite Rmax_right by lra. lra.
Qed.

(** Any way of taking means of functions of a positive price. *)
Record mean_of (M : (R -> R) -> R -> Prop) : Prop := {
  mo_ext : forall f g a, (forall x, f x = g x) -> M f a -> M g a;
  mo_lin : forall f g a b c e, M f a -> M g b -> M (fun x => c * f x + e * g x) (c * a + e * b);
  mo_mono : forall f g a b, (forall x, 0 < x -> f x <= g x) -> M f a -> M g b -> a <= b;
  mo_one : M (fun _ => 1) 1 }.

Fixpoint total (dig : nat -> R) (m : nat) : R := match m with O => 0 | S m' => total dig m' + dig m end.
Lemma mean_stairs : forall M, mean_of M -> forall h (dig : nat -> R) m,
  (forall j, (1 <= j <= m)%nat -> M (fun x => if Rlt_dec x (INR j * h) then 1 else 0) (dig j)) -> M (staircase h m) (h * total dig m).
Proof.
  intros M MO h dig. induction m as [|m IH]; intros H.
  - pose proof (mo_lin M MO _ _ _ _ 0 0 (mo_one M MO) (mo_one M MO)) as E. cbn [total staircase].
    replace (h * 0) with (0 * 1 + 0 * 1) by ring. eapply (mo_ext M MO); [|exact E]. intros x. cbn. ring.
  - pose proof (mo_lin M MO _ _ _ _ 1 h (IH (fun j J => H j ltac:(lia))) (H (S m) ltac:(lia))) as E. cbn [total].
    replace (h * (total dig m + dig (S m))) with (1 * (h * total dig m) + h * dig (S m)) by ring.
    eapply (mo_ext M MO); [|exact E]. intros x. cbn [staircase]. ring.
Qed.
Lemma mean_put : forall M, mean_of M -> forall h (dig : nat -> R) m p, 0 < h ->
  (forall j, (1 <= j <= m)%nat -> M (fun x => if Rlt_dec x (INR j * h) then 1 else 0) (dig j)) ->
  M (fun x => Rmax (INR m * h - x) 0) p -> Rabs (p - h * total dig m) <= h.
Proof.
  intros M MO h dig m p H DIG P. pose proof (mean_stairs M MO h dig m DIG) as S.
  pose proof (mo_lin M MO _ _ _ _ 1 h S (mo_one M MO)) as U. pose proof (mo_lin M MO _ _ _ _ 1 (- h) S (mo_one M MO)) as L.
  assert (C : forall x, 0 < x -> staircase h m x - h <= Rmax (INR m * h - x) 0 <= staircase h m x + h).
  { intros x X. pose proof (staircase_close h H m x X) as C. apply Rabs_le_between in C. lra. }
  assert (B1 : p <= 1 * (h * total dig m) + h * 1).
  { eapply (mo_mono M MO); [|exact P|exact U]. intros x X. specialize (C x X). cbn beta. lra. }
  assert (B2 : 1 * (h * total dig m) + - h * 1 <= p).
  { eapply (mo_mono M MO); [|exact L|exact P]. intros x X. specialize (C x X). cbn beta. lra. }
  apply Rabs_le_between. lra.
Qed.
Lemma total_close : forall dig dig' c m, (forall j, (1 <= j <= m)%nat -> Rabs (dig j - dig' j) <= c) ->
  Rabs (total dig m - total dig' m) <= INR m * c.
Proof.
  intros dig dig' c. induction m as [|m IH]; intros H.
  - cbn. rewrite Rminus_0_r, Rabs_R0. lra.
  - specialize (IH (fun j J => H j ltac:(lia))). specialize (H (S m) ltac:(lia)). cbn [total]. rewrite S_INR.
    apply Rabs_le_between in IH. apply Rabs_le_between in H. apply Rabs_le_between. lra.
Qed.

Lemma choose : forall (M M' : (R -> R) -> R -> Prop) c h m, 0 < h ->
  (forall k, 0 < k -> exists a a', M (fun x => if Rlt_dec x k then 1 else 0) a /\ M' (fun x => if Rlt_dec x k then 1 else 0) a' /\ Rabs (a - a') <= c) ->
  exists dig dig', forall j, (1 <= j <= m)%nat -> M (fun x => if Rlt_dec x (INR j * h) then 1 else 0) (dig j) /\
    M' (fun x => if Rlt_dec x (INR j * h) then 1 else 0) (dig' j) /\ Rabs (dig j - dig' j) <= c.
Proof.
  intros M M' c h m H DIG. induction m as [|m (dig & dig' & IH)].
  - exists (fun _ => 0), (fun _ => 0). intros; lia.
  - destruct (DIG (INR (S m) * h)) as (a & a' & A). { apply Rmult_lt_0_compat; [apply lt_0_INR; lia|easy]. }
    exists (fun j => if Nat.eqb j (S m) then a else dig j), (fun j => if Nat.eqb j (S m) then a' else dig' j). intros j J.
    destruct (Nat.eqb_spec j (S m)) as [->|NJ]; [exact A|apply IH; lia].
Qed.

(** If two means agree up to [c] on every digital put, they agree up to [K c] on a put. *)
Lemma put_close : forall M M', mean_of M -> mean_of M' -> forall K c p p', 0 < K -> 0 <= c ->
  (forall k, 0 < k -> exists a a', M (fun x => if Rlt_dec x k then 1 else 0) a /\ M' (fun x => if Rlt_dec x k then 1 else 0) a' /\ Rabs (a - a') <= c) ->
  M (fun x => Rmax (K - x) 0) p -> M' (fun x => Rmax (K - x) 0) p' -> Rabs (p - p') <= K * c.
Proof.
  intros M M' MO MO' K c p p' K0 C0 DIG P P'. apply le_epsilon. intros e E.
  destruct (archimed_cor1 (e / (2 * K)) ltac:(apply Rdiv_lt_0_compat; lra)) as (m & ME & M0).
  assert (MP : 0 < INR m) by now apply lt_0_INR.
  set (h := K / INR m). assert (H : 0 < h) by now apply Rdiv_lt_0_compat.
  assert (HE : 2 * h <= e).
  { unfold h, Rdiv. apply (Rmult_lt_compat_l (2 * K)) in ME; [|lra]. replace (2 * K * (e / (2 * K))) with e in ME by (field; lra). lra. }
  assert (HK : INR m * h = K) by (unfold h; field; lra).
  destruct (choose M M' c h m H DIG) as (dig & dig' & CH).
  pose proof (mean_put M MO h dig m p H (fun j J => proj1 (CH j J)) ltac:(rewrite HK; exact P)) as B.
  pose proof (mean_put M' MO' h dig' m p' H (fun j J => proj1 (proj2 (CH j J))) ltac:(rewrite HK; exact P')) as B'.
  pose proof (total_close dig dig' c m (fun j J => proj2 (proj2 (CH j J)))) as T.
  assert (T' : Rabs (h * total dig m - h * total dig' m) <= K * c).
  { rewrite <- Rmult_minus_distr_l, Rabs_mult, (Rabs_pos_eq h) by lra. rewrite <- HK. apply (Rmult_le_compat_l h) in T; [|lra]. lra. }
  apply Rabs_le_between in B. apply Rabs_le_between in B'. apply Rabs_le_between in T'. apply Rabs_le_between. lra.
Qed.

(** ** The lognormal price as a mean *)
Definition lognormal (F v : R) (f : R -> R) (m : R) : Prop := is_law (SNormal 0 1) (fun z => f (F * exp (v * z - v * v / 2))) m.
Lemma lognormal_mean : forall F v, 0 < F -> mean_of (lognormal F v).
Proof.
  intros F v F0. split.
  - intros f g a H. apply (law_ext (SNormal 0 1) (fun z => f (F * exp (v * z - v * v / 2)))). intros z _. apply H.
  - intros f g a b c e. apply (law_lin (SNormal 0 1) (fun z => f (F * exp (v * z - v * v / 2))) (fun z => g (F * exp (v * z - v * v / 2)))).
  - intros f g a b H A B. apply (law_mono (SNormal 0 1) (fun z => f (F * exp (v * z - v * v / 2))) (fun z => g (F * exp (v * z - v * v / 2)))); [discriminate| |exact A|exact B]. intros z _. apply H. apply Rmult_lt_0_compat; [easy|apply exp_pos].
  - exact (Enormal_const 1).
Qed.
Lemma lognormal_closed : forall pay F v, 0 < F -> 0 < v -> positive_strikes pay -> lognormal F v (terminal pay) (lognormal_payoff pay F v).
Proof.
  intros pay F v F0 V P. pose proof (pay_one pay (ln F - v * v / 2) v P V) as E. rewrite sqrt_square in E by lra.
  replace (exp (ln F - v * v / 2 + v * v / 2)) with F in E by (replace (ln F - v * v / 2 + v * v / 2) with (ln F) by ring; now rewrite exp_ln).
  unfold lognormal, is_law. eapply is_Enormal_ext; [|exact E]. intros z. cbn beta. f_equal.
  replace (ln F - v * v / 2 + v * z) with (ln F + (v * (0 + 1 * z) - v * v / 2)) by ring. now rewrite exp_plus, exp_ln.
Qed.
Lemma list_mean : forall l : list R, l <> [] -> (forall x, In x l -> 0 < x) -> mean_of (fun f m => Rmean (map f l) = m).
Proof.
  intros l N P. split.
  - intros f g a H <-. symmetry. now apply Rmean_ext.
  - intros f g a b c e <- <-. now rewrite (Rmean_plus (fun x => c * f x) (fun x => e * g x)), !Rmean_scal.
  - intros f g a b H <- <-. apply Rmean_le; [easy|]. intros x I. now apply H, P.
  - now apply Rmean_const.
Qed.

(** ** Prices at the quantiles of evenly spread numbers *)
Section Prices.
Context {Item : Type}.
Variables (items : list Item) (num q : Item -> R) (D e F v : R).
Hypothesis NE : items <> [].
Hypothesis ACC : forall a, In a items -> Rabs (Phi (q a) - num a) <= e.
Hypothesis DISC : discrepancy_at_most (map num items) D.
Hypothesis F0 : 0 < F.
Hypothesis V0 : 0 < v.
Definition price_at (u : Item) : R := F * exp (v * q u - v * v / 2).

Lemma below_iff : forall K u, 0 < K -> (price_at u < K <-> q u < - black_d2 F K v) /\ (price_at u <= K <-> q u <= - black_d2 F K v).
Proof.
  intros K u K0. unfold price_at, black_d2, black_d1. set (z := q u).
  assert (E : - ((ln (F / K) + v * v / 2) / v - v) * v = ln K - ln F + v * v / 2).
  { unfold Rdiv at 2. rewrite ln_mult, ln_Rinv by (try apply Rinv_0_lt_compat; easy). field. lra. }
  set (t := - ((ln (F / K) + v * v / 2) / v - v)) in *.
  assert (EK : K = F * exp (v * t - v * v / 2)).
  { replace (v * t - v * v / 2) with (ln K + - ln F) by lra. rewrite exp_plus, exp_Ropp, !exp_ln by easy. field. lra. }
  assert (LT : forall x y, x < y -> F * exp (v * x - v * v / 2) < F * exp (v * y - v * v / 2)).
  { intros x y L. apply Rmult_lt_compat_l; [easy|]. apply exp_increasing. nra. }
  rewrite EK. split; split; intros H.
  - apply Rnot_le_lt. intros [L| ->]; [pose proof (LT _ _ L)|]; lra.
  - now apply LT.
  - apply Rnot_lt_le. intros L. pose proof (LT _ _ L). lra.
  - destruct H as [L| ->]; [left; now apply LT|right; reflexivity].
Qed.
Lemma digital_share : forall K, 0 < K ->
  Rabs (Rmean (map (fun x => if Rlt_dec x K then 1 else 0) (map price_at items)) - Phi (- black_d2 F K v)) <= D + e /\
  Rabs (Rmean (map (fun x => if Rle_dec x K then 1 else 0) (map price_at items)) - Phi (- black_d2 F K v)) <= D + e.
Proof.
  intros K K0. destruct (share_quantiles items num q D e NE ACC DISC (- black_d2 F K v)) as (A & B). rewrite !map_map. split.
  - erewrite Rmean_ext; [exact A|]. intros u _. cbn beta. pose proof (proj1 (below_iff K u K0)).
    destruct (Rlt_dec (price_at u) K), (Rlt_dec (q u) (- black_d2 F K v)); tauto.
  - erewrite Rmean_ext; [exact B|]. intros u _. cbn beta. pose proof (proj2 (below_iff K u K0)).
    destruct (Rle_dec (price_at u) K), (Rle_dec (q u) (- black_d2 F K v)); tauto.
Qed.

Lemma spread_prices : forall pay V, positive_strikes pay -> payoff_variation pay V ->
  Rabs (Rmean (map (terminal pay) (map price_at items)) - lognormal_payoff pay F v) <= V * (D + e).
Proof.
  intros pay V PS PV. pose proof (D_nonneg items num D DISC) as D0. pose proof (e_nonneg items num q e NE ACC) as E0.
  assert (NE' : map price_at items <> []) by (now destruct items).
  assert (POS : forall x, In x (map price_at items) -> 0 < x).
  { intros x I. apply in_map_iff in I. destruct I as (u & <- & _). apply Rmult_lt_0_compat; [easy|apply exp_pos]. }
  destruct pay as [ty K|ty K|KL KU|ty]; cbn in PS; [| | |easy].
  - assert (T : ty <> Call /\ V = K) by (destruct ty; cbn in PV; easy). destruct T as (NC & ->).
    pose proof (lognormal_closed (PVanilla ty K) F v F0 V0 PS) as L.
    eapply (put_close _ _ (list_mean _ NE' POS) (lognormal_mean F v F0) K (D + e)); [easy|lra| | |].
    + intros k K0. exists (Rmean (map (fun x => if Rlt_dec x k then 1 else 0) (map price_at items))), (Phi (- black_d2 F k v)).
      split; [reflexivity|]. split; [|now apply digital_share]. exact (lognormal_closed (PDigital Put k) F v F0 V0 K0).
    + apply Rmean_ext. intros x _. cbn. unfold vanilla. now destruct ty.
    + eapply (mo_ext _ (lognormal_mean F v F0)); [|exact L]. intros x. cbn. unfold vanilla. now destruct ty.
  - assert (V = 1) as -> by (destruct ty; exact PV). rewrite Rmult_1_l. destruct (digital_share K PS) as (A & B).
    assert (T : ty = Call \/ (forall x, terminal (PDigital ty K) x = if Rlt_dec x K then 1 else 0) /\ lognormal_payoff (PDigital ty K) F v = Phi (- black_d2 F K v)) by (destruct ty; auto).
    destruct T as [->|(T & ->)].
    + cbn [lognormal_payoff]. rewrite (Rmean_ext _ (fun x => (fun _ => 1) x - (fun x => if Rle_dec x K then 1 else 0) x)).
      * rewrite Rmean_minus, Rmean_const by easy. rewrite Phi_opp in B. apply Rabs_le_between in B. apply Rabs_le_between. lra.
      * intros x _. cbn. destruct (Rlt_dec K x), (Rle_dec x K); lra.
    + rewrite (Rmean_ext _ (fun x => if Rlt_dec x K then 1 else 0)); [exact A|]. intros x _. apply T.
  - cbn in PV. subst V. destruct PS as (P1 & P2). cbn [lognormal_payoff]. destruct (Rle_dec KL KU) as [O|O].
    + destruct (digital_share KL P1) as (A & _). destruct (digital_share KU P2) as (_ & B).
      rewrite (Rmean_ext _ (fun x => (fun x => if Rle_dec x KU then 1 else 0) x - (fun x => if Rlt_dec x KL then 1 else 0) x)).
      * rewrite Rmean_minus. rewrite Phi_opp in A, B. apply Rabs_le_between in A. apply Rabs_le_between in B. apply Rabs_le_between. lra.
      * intros x _. cbn. destruct (Rle_dec KL x), (Rle_dec x KU), (Rlt_dec x KL); lra.
    + rewrite (Rmean_ext _ (fun _ => 0)); [rewrite Rmean_const by easy; rewrite Rminus_0_r, Rabs_R0; lra|].
      intros x _. cbn. destruct (Rle_dec KL x), (Rle_dec x KU); lra.
Qed.
End Prices.
