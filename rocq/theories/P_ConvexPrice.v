(** Properties C130 and C131 for the price that the solver returns. *)
From Coq Require Import String List ZArith Bool Lia Reals Lra Psatz.
From Flocq Require Import Core.
From Verif Require Import M_Num M_Outcome M_Dict M_Stock M_Market M_Payoff M_Option M_Numeric M_Fdm.
From Verif Require Import S_Market S_Model S_Numeric S_Fdm L_Dict L_Numeric L_Fdm L_Convex P_Interpolation P_LinearSystem P_FdmMarch P_FdmScheme P_FdmPrice P_FdmCompare P_FdmConvex.
Import ListNotations.
Local Open Scope R_scope.

(** ** Linear interpolation on equidistant nodes *)
Section Equidistant.
Variable h : R. Hypothesis HH : 0 < h.
Variable n : nat. Hypothesis N2 : (2 <= n)%nat.
Variable xs : list R. Hypothesis XS : xs = map (fun j => INR j * h) (seq 0 n).

Lemma xs_len : length xs = n. Proof. rewrite XS, map_length, seq_length. reflexivity. Qed.
Lemma xs_el : forall j, (j < n)%nat -> el xs j = INR j * h.
Proof. intros j J. rewrite XS. unfold el. now rewrite nth_map_seq. Qed.
Lemma xs_inc : increasing ident xs.
Proof.
  intros i j x y IJ X Y. assert (LJ : (j < n)%nat) by (rewrite <- xs_len; apply nth_error_Some; congruence).
  apply (nth_error_nth _ _ 0) in X. apply (nth_error_nth _ _ 0) in Y. change (el xs i = x) in X. change (el xs j = y) in Y. rewrite xs_el in X, Y by lia. subst x y.
  unfold ident. apply Rmult_lt_compat_r; [easy|]. now apply lt_INR.
Qed.
Lemma find_node : forall x, 0 <= x <= INR (n - 1) * h -> exists k, (k + 1 < n)%nat /\ INR k * h <= x <= INR (k + 1) * h.
Proof.
  intros x [X0 X1]. assert (G : forall m, (1 <= m <= n - 1)%nat -> x <= INR m * h -> exists k, (k + 1 < n)%nat /\ INR k * h <= x <= INR (k + 1) * h).
  { induction m as [|m IH]; intros M XM; [lia|]. destruct (Rle_lt_dec x (INR m * h)) as [L|L].
    - destruct m as [|m]; [|apply IH; [lia|exact L]]. exists 0%nat. split; [lia|]. cbn [INR Nat.add] in *. lra.
    - exists m. split; [lia|]. rewrite Nat.add_1_r. lra. }
  apply (G (n - 1)%nat); [lia|exact X1].
Qed.

(** The interpolant, its segments, and its value on a segment. *)
Definition interpolant (v : list R) (x : R) : R := match linear_interpolate xs v x with Ok y => y | _ => 0 end.
Definition line (v : list R) (k : nat) (x : R) : R := el v k + (x - INR k * h) * (el v (k + 1) - el v k) / h.
Lemma interpolates : forall v x, length v = n -> linear_interpolate xs v x = Ok (interpolant v x) /\
  forall k, (k + 1 < n)%nat -> INR k * h <= x <= INR (k + 1) * h -> interpolant v x = line v k x.
Proof.
  intros v x LV. assert (NE : xs <> []) by (intros Z; pose proof xs_len as L; rewrite Z in L; cbn in L; lia).
  destruct (linear_char xs v x NE ltac:(now rewrite xs_len) xs_inc) as (y & E & _ & _ & S). unfold interpolant. rewrite E. split; [reflexivity|].
  intros k K X. rewrite (S k (el xs k) (el v k) (el xs (k + 1)) (el v (k + 1))).
  - unfold seg, line. rewrite !xs_el by lia. rewrite plus_INR. change (INR 1) with 1. field. lra.
  - split; apply nth_error_nth'; rewrite ?xs_len; lia.
  - rewrite Nat.add_1_r. split; apply nth_error_nth'; rewrite ?xs_len; lia.
  - rewrite !xs_el by lia. exact X.
Qed.
(** On a segment the line is a mean of the values at the ends. *)
Lemma line_mean : forall v k x, INR k * h <= x <= INR (k + 1) * h -> exists t, 0 <= t <= 1 /\ x = (1 - t) * (INR k * h) + t * (INR (k + 1) * h) /\ line v k x = (1 - t) * el v k + t * el v (k + 1).
Proof.
  intros v k x X. rewrite plus_INR in *. change (INR 1) with 1 in *. exists ((x - INR k * h) / h). split; [split|split].
  - apply Rmult_le_pos; [lra|left; now apply Rinv_0_lt_compat].
  - apply (Rmult_le_reg_r h); [easy|]. unfold Rdiv. rewrite Rmult_assoc, Rinv_l by lra. lra.
  - field. lra.
  - unfold line. field. lra.
Qed.
Lemma interpolant_le : forall v v' x, length v = n -> length v' = n -> 0 <= x <= INR (n - 1) * h ->
  (forall j, (j < n)%nat -> el v j <= el v' j) -> interpolant v x <= interpolant v' x.
Proof.
  intros v v' x LV LV' X LE. destruct (find_node x X) as (k & K & XK). rewrite (proj2 (interpolates v x LV) k K XK), (proj2 (interpolates v' x LV') k K XK).
  destruct (line_mean v k x XK) as (t & T & XT & ->). destruct (line_mean v' k x XK) as (t' & T' & XT' & ->).
  assert (t = t') as <-. { rewrite plus_INR in *. change (INR 1) with 1 in *. apply (Rmult_eq_reg_r h); lra. }
  apply Rplus_le_compat; apply Rmult_le_compat_l; try lra; apply LE; lia.
Qed.
Section Shape.
Variable v : list R. Hypothesis LV : length v = n.
Hypothesis BE : forall j, (1 <= j < n - 1)%nat -> 0 <= bend (el v) j.
Lemma line_node : forall k j, (k + 1 < n)%nat -> (j < n)%nat -> line v k (INR j * h) <= el v j.
Proof.
  intros k j K J. destruct (chords (el v) n h HH BE) as [_ CH]. unfold line.
  assert (S : (el v (k + 1) - el v k) / (INR (k + 1) * h - INR k * h) = (el v (k + 1) - el v k) / h) by (rewrite plus_INR; change (INR 1) with 1; f_equal; ring).
  destruct (lt_eq_lt_dec j k) as [[L|E]|L].
  - specialize (CH j k (k + 1)%nat ltac:(lia) ltac:(lia)). rewrite S in CH.
    assert (P : 0 < INR k * h - INR j * h) by (assert (INR j < INR k) by (now apply lt_INR); nra).
    assert (Q := Rmult_le_compat_r _ _ _ (Rlt_le _ _ P) CH). unfold Rdiv in Q at 1. rewrite Rmult_assoc, Rinv_l, Rmult_1_r in Q by lra. unfold Rdiv in *. lra.
  - subst j. unfold Rdiv. lra.
  - destruct (Nat.eq_dec j (k + 1)) as [->|NJ].
    + rewrite plus_INR. change (INR 1) with 1. right. field. lra.
    + specialize (CH k (k + 1)%nat j ltac:(lia) ltac:(lia)). rewrite S in CH.
      assert (P : 0 < INR j * h - INR (k + 1) * h) by (assert (INR (k + 1) < INR j) by (apply lt_INR; lia); nra).
      assert (Q := Rmult_le_compat_r _ _ _ (Rlt_le _ _ P) CH). unfold Rdiv in Q at 2. rewrite Rmult_assoc, Rinv_l, Rmult_1_r in Q by lra.
      assert (D : (el v (k + 1) - el v k) / h * h = el v (k + 1) - el v k) by (field; lra). rewrite plus_INR in Q. change (INR 1) with 1 in Q. unfold Rdiv in *. lra.
Qed.
Lemma line_below : forall k x, (k + 1 < n)%nat -> 0 <= x <= INR (n - 1) * h -> line v k x <= interpolant v x.
Proof.
  intros k x K X. destruct (find_node x X) as (i & I & XI). rewrite (proj2 (interpolates v x LV) i I XI). destruct (line_mean v i x XI) as (t & T & XT & ->).
  pose proof (line_node k i K ltac:(lia)) as A. pose proof (line_node k (i + 1)%nat K ltac:(lia)) as B.
  replace (line v k x) with ((1 - t) * line v k (INR i * h) + t * line v k (INR (i + 1) * h)) by (rewrite XT; unfold line, Rdiv; ring).
  apply Rplus_le_compat; apply Rmult_le_compat_l; lra.
Qed.
Lemma interpolant_convex : forall a b t, 0 <= a <= INR (n - 1) * h -> 0 <= b <= INR (n - 1) * h -> 0 <= t <= 1 ->
  interpolant v (t * a + (1 - t) * b) <= t * interpolant v a + (1 - t) * interpolant v b.
Proof.
  intros a b t A B T. set (x := t * a + (1 - t) * b).
  assert (X : 0 <= x <= INR (n - 1) * h).
  { assert (0 <= t * a <= t * (INR (n - 1) * h)) by (split; [apply Rmult_le_pos|apply Rmult_le_compat_l]; lra).
    assert (0 <= (1 - t) * b <= (1 - t) * (INR (n - 1) * h)) by (split; [apply Rmult_le_pos|apply Rmult_le_compat_l]; lra). unfold x. lra. }
  destruct (find_node x X) as (k & K & XK). rewrite (proj2 (interpolates v x LV) k K XK).
  replace (line v k x) with (t * line v k a + (1 - t) * line v k b) by (unfold x, line, Rdiv; ring).
  apply Rplus_le_compat; apply Rmult_le_compat_l; try lra; now apply line_below.
Qed.
Hypothesis FA : forall i j, (i <= j)%nat -> (j < n)%nat -> el v j <= el v i.
Lemma interpolant_falls : forall a b, 0 <= a <= b -> b <= INR (n - 1) * h -> interpolant v b <= interpolant v a.
Proof.
  intros a b A B. destruct (find_node a ltac:(lra)) as (i & I & XI). destruct (find_node b ltac:(lra)) as (k & K & XK).
  rewrite (proj2 (interpolates v a LV) i I XI), (proj2 (interpolates v b LV) k K XK).
  assert (IN : forall i, (i + 1 < n)%nat -> el v (i + 1) - el v i <= 0) by (intros i' I'; specialize (FA i' (i' + 1)%nat ltac:(lia) ltac:(lia)); lra).
  destruct (lt_eq_lt_dec i k) as [[L|E]|L].
  - destruct (line_mean v i a XI) as (t & T & _ & ->). destruct (line_mean v k b XK) as (u & U & _ & ->).
    pose proof (FA (i + 1)%nat k ltac:(lia) ltac:(lia)). specialize (IN i I) as I1. specialize (IN k K) as I2. nra.
  - subst k. unfold line. specialize (IN i I). apply Rplus_le_compat_l. unfold Rdiv. apply Rmult_le_compat_r; [left; now apply Rinv_0_lt_compat|]. nra.
  - assert (AB : a = b).
    { assert (INR (k + 1) * h <= INR i * h) by (apply Rmult_le_compat_r; [lra|]; apply le_INR; lia). lra. }
    subst b. right. rewrite <- (proj2 (interpolates v a LV) k K XK). apply (proj2 (interpolates v a LV) i I XI).
Qed.
End Shape.
End Equidistant.

(** ** Prices *)
(** What a solver with the default interpolation returns: the values [v] of the nodes,
    interpolated at the spot of the moment, at the first call and at all later calls. *)
Lemma price_interpolates : forall kind lu xDom J tDom N ty K o cf s w d v s',
  gridded kind xDom J tDom N -> vanilla_solver kind xDom J tDom N ty K o cf s -> cInterp cf = LinearInterpolation -> read (optTicker o) w = Ok d ->
  (forall fuel, (Z.to_nat (N - 1) <= fuel)%nat -> solve lu cf w fuel s = Some (Ok v, s')) ->
  let P := interpolant (nodes xDom J) v in
  length v = Z.to_nat J /\
  (forall fuel, (Z.to_nat (N - 1) <= fuel)%nat -> calculatePrice lu cf w fuel s = Some (Ok (P (S_ d)), s')) /\
  (forall w' d' fuel, read (optTicker o) w' = Ok d' -> calculatePrice lu cf w' fuel s' = Some (Ok (P (S_ d')), s')).
Proof.
  intros kind lu xDom J tDom N ty K o cf s w d v s' G (TY & PO & ip & mem & w0 & E) CI RD SO P.
  pose proof G as (KK & HJ & MX & HN & HX & HT).
  destruct (ctor_grid _ _ _ _ _ _ _ _ _ _ _ _ _ HJ HN HX HT E) as (HH & _ & _ & N4 & _ & XS & _). change (cX cf = nodes xDom J) in XS.
  assert (J0 : (0 <= J)%Z) by lia. assert (JU : (2 <= J <= UINT_MOD)%Z) by (unfold UINT_MOD, INT_MAX in *; lia).
  destruct (ctor_ok _ _ _ _ _ _ _ _ _ _ _ _ _ _ _ J0 E) as (_ & _ & _ & _ & _ & _ & OP & IP & _ & _ & _ & _ & _ & _ & _ & _ & _ & FS & _).
  assert (IP' : ip = None \/ ip = Some LinearInterpolation \/ ip = Some QuadraticInterpolation).
  { rewrite CI in IP. destruct ip as [i|]; [right; left; congruence|now left]. }
  pose proof (SO _ (le_n _)) as SM.
  destruct (C74_node_price lu _ _ _ _ _ _ _ _ _ _ _ _ _ JU HX IP' E _ _ _ _ SM) as (LV & _).
  split; [exact LV|].
  assert (LATER : forall w' d' fuel, read (optTicker o) w' = Ok d' -> calculatePrice lu cf w' fuel s' = Some (Ok (P (S_ d')), s')).
  { intros w' d' fuel RD'. destruct (C74_solved_once _ _ _ _ _ _ _ _ _ SM []) as (_ & _ & PR). rewrite OP in PR. rewrite (PR w' fuel d' RD'). rewrite CI, XS. cbn [interpolate].
    unfold P. rewrite (proj1 (interpolates (xDom / (IZR J - 1)) HH (Z.to_nat J) ltac:(lia) (nodes xDom J) eq_refl v (S_ d') LV)). reflexivity. }
  split; [|exact LATER]. intros fuel F. rewrite (first_price _ _ _ _ _ _ _ _ _ FS (SO fuel F)). now apply LATER.
Qed.

(** The price of a put falls with the spot and is convex in it.  Missing from the full
    statement of C130: calls, for which it is false ([C130_call_refuted]), and dividend yields
    above the rate. *)
Theorem C130_put_price_partial : forall kind lu xDom J tDom N K o cf s w d,
  gridded kind xDom J tDom N -> vanilla_solver kind xDom J tDom N Put K o cf s -> cInterp cf = LinearInterpolation -> read (optTicker o) w = Ok d ->
  calm kind J tDom N (sigma_ d) (mR w) (dividend d) -> 0 <= K <= xDom -> 0 <= dividend d <= mR w ->
  exists (P : R -> R) s',
    (forall fuel, (Z.to_nat (N - 1) <= fuel)%nat -> calculatePrice lu cf w fuel s = Some (Ok (P (S_ d)), s')) /\
    (forall w' d' fuel, read (optTicker o) w' = Ok d' -> calculatePrice lu cf w' fuel s' = Some (Ok (P (S_ d')), s')) /\
    (forall a b, 0 <= a <= b -> b <= xDom -> P b <= P a) /\
    (forall a b t, 0 <= a <= xDom -> 0 <= b <= xDom -> 0 <= t <= 1 -> P (t * a + (1 - t) * b) <= t * P a + (1 - t) * P b).
Proof.
  intros kind lu xDom J tDom N K o cf s w d G V CI RD CA KX QR.
  destruct (put_layers kind lu xDom J tDom N K o cf s w d G V RD CA KX QR) as (v & s' & f & SO & FM & _ & B & _).
  destruct (price_interpolates kind lu xDom J tDom N Put K o cf s w d v s' G V CI RD SO) as (LV & P1 & P2).
  exists (interpolant (nodes xDom J) v), s'. split; [exact P1|]. split; [exact P2|].
  destruct (B _ (le_n _)) as (_ & RI & PO & BE). rewrite FM in RI, PO, BE. clear B FM.
  pose proof G as (_ & HJ & _ & _ & HX & _). assert (PJ : 0 < IZR J - 1) by (assert (4 <= IZR J) by (apply IZR_le; lia); lra).
  set (n := Z.to_nat J) in *. assert (HH : 0 < xDom / (IZR J - 1)) by (now apply Rdiv_lt_0_compat). assert (N2 : (2 <= n)%nat) by (unfold n; lia).
  assert (LX : INR (n - 1) * (xDom / (IZR J - 1)) = xDom).
  { unfold n. rewrite minus_INR by lia. rewrite INR_IZR_INZ, Z2Nat.id by lia. change (INR 1) with 1. field. lra. }
  assert (FA : forall i j, (i <= j)%nat -> (j < n)%nat -> el v j <= el v i).
  { destruct (chords (el v) n _ HH BE) as [GL _]. apply (falls (el v) n). intros a A. specialize (GL a (n - 2)%nat ltac:(lia) ltac:(lia)).
    pose proof (PO (n - 2)%nat ltac:(lia)). replace (n - 2 + 1)%nat with (n - 1)%nat in GL by lia. lra. }
  split.
  - intros a b A Bx. apply (interpolant_falls _ HH n N2 (nodes xDom J) eq_refl v LV FA); [easy|now rewrite LX].
  - intros a b t A Bx T. apply (interpolant_convex _ HH n N2 (nodes xDom J) eq_refl v LV BE); rewrite ?LX; easy.
Qed.
Print Assumptions C130_put_price_partial.

(** The price of a put rises with the volatility, at every spot of the grid. *)
Theorem C131_price : forall kind lu xDom J tDom N K o1 o2 cf1 s1 cf2 s2 w1 w2 d1 d2,
  gridded kind xDom J tDom N ->
  vanilla_solver kind xDom J tDom N Put K o1 cf1 s1 -> vanilla_solver kind xDom J tDom N Put K o2 cf2 s2 ->
  cInterp cf1 = LinearInterpolation -> cInterp cf2 = LinearInterpolation ->
  read (optTicker o1) w1 = Ok d1 -> read (optTicker o2) w2 = Ok d2 ->
  calm kind J tDom N (sigma_ d1) (mR w1) (dividend d1) -> calm kind J tDom N (sigma_ d2) (mR w2) (dividend d2) ->
  0 <= K <= xDom -> 0 <= dividend d1 <= mR w1 -> mR w1 = mR w2 -> dividend d1 = dividend d2 -> 0 <= sigma_ d1 <= sigma_ d2 ->
  S_ d1 = S_ d2 -> 0 <= S_ d1 <= xDom ->
  exists p1 p2 s1' s2', (forall fuel, (Z.to_nat (N - 1) <= fuel)%nat ->
      calculatePrice lu cf1 w1 fuel s1 = Some (Ok p1, s1') /\ calculatePrice lu cf2 w2 fuel s2 = Some (Ok p2, s2')) /\ p1 <= p2.
Proof.
  intros kind lu xDom J tDom N K o1 o2 cf1 s1 cf2 s2 w1 w2 d1 d2 G V1 V2 C1 C2 RD1 RD2 CA1 CA2 KX QR ER EQ SG SS SX.
  destruct (C131_volatility kind lu xDom J tDom N K o1 o2 cf1 s1 cf2 s2 w1 w2 d1 d2 G V1 V2 RD1 RD2 CA1 CA2 KX QR ER EQ SG) as (v1 & v2 & s1' & s2' & SO & LE).
  destruct (price_interpolates kind lu xDom J tDom N Put K o1 cf1 s1 w1 d1 v1 s1' G V1 C1 RD1 (fun fuel F => proj1 (SO fuel F))) as (LV1 & P1 & _).
  destruct (price_interpolates kind lu xDom J tDom N Put K o2 cf2 s2 w2 d2 v2 s2' G V2 C2 RD2 (fun fuel F => proj2 (SO fuel F))) as (LV2 & P2 & _).
  exists (interpolant (nodes xDom J) v1 (S_ d1)), (interpolant (nodes xDom J) v2 (S_ d2)), s1', s2'. split; [intros fuel F; split; auto|].
  pose proof G as (_ & HJ & _ & _ & HX & _). assert (PJ : 0 < IZR J - 1) by (assert (4 <= IZR J) by (apply IZR_le; lia); lra).
  assert (HH : 0 < xDom / (IZR J - 1)) by (now apply Rdiv_lt_0_compat).
  assert (LX : INR (Z.to_nat J - 1) * (xDom / (IZR J - 1)) = xDom).
  { rewrite minus_INR by lia. rewrite INR_IZR_INZ, Z2Nat.id by lia. change (INR 1) with 1. field. lra. }
  rewrite <- SS. apply (interpolant_le _ HH (Z.to_nat J) ltac:(lia) (nodes xDom J) eq_refl); auto. now rewrite LX.
Qed.
Print Assumptions C131_price.

(** The put of [C130_C131_ex] between two nodes. *)
Example C130_C131_price_ex : forall kind lu mem, kind = KExplicit \/ kind = KImplicit ->
  let w sigma S := mkMarket (1 / 10) [("A"%string, 0%nat)] [] [mkStock S sigma (Some (1 / 20))] [] : Market R in
  let o := o_bs Put 2 1 in
  exists cf1 s1 cf2 s2 p1 p2 s1' s2' P,
    Fdm_ctor kind 4 5 1 11 (BlackScholesPDE o) o None (Some ThomasAlgorithm) mem (w (3 / 4) (3 / 2)) = Ok (cf1, s1) /\
    Fdm_ctor kind 4 5 1 11 (BlackScholesPDE o) o None (Some ThomasAlgorithm) mem (w 1 (3 / 2)) = Ok (cf2, s2) /\
    calculatePrice lu cf1 (w (3 / 4) (3 / 2)) 10 s1 = Some (Ok p1, s1') /\ calculatePrice lu cf2 (w 1 (3 / 2)) 10 s2 = Some (Ok p2, s2') /\ p1 <= p2 /\
    calculatePrice lu cf1 (w (3 / 4) 1) 10 s1' = Some (Ok (P 1), s1') /\ calculatePrice lu cf1 (w (3 / 4) 2) 10 s1' = Some (Ok (P 2), s1') /\
    P 2 <= p1 <= (P 1 + P 2) / 2.
Proof.
  intros kind lu mem KK w o. set (w1 := w (3 / 4) (3 / 2)). set (w2 := w 1 (3 / 2)).
  destruct (ctor_total _ _ kind 4 5 1 11 (BlackScholesPDE o) o None (Some ThomasAlgorithm) mem w1 (initial_total Put 2 1 w1) ltac:(lia)) as (cf1 & s1 & E1).
  destruct (ctor_total _ _ kind 4 5 1 11 (BlackScholesPDE o) o None (Some ThomasAlgorithm) mem w2 (initial_total Put 2 1 w2) ltac:(lia)) as (cf2 & s2 & E2).
  assert (G : gridded kind 4 5 1 11) by (split; [auto|]; unfold ULONG_MOD, INT_MAX; repeat split; first [lia|lra]).
  assert (V1 : vanilla_solver kind 4 5 1 11 Put 2 o cf1 s1) by (split; [now right|]; split; [reflexivity|]; eauto).
  assert (V2 : vanilla_solver kind 4 5 1 11 Put 2 o cf2 s2) by (split; [now right|]; split; [reflexivity|]; eauto).
  assert (CA1 : calm kind 5 1 11 (3 / 4) (1 / 10) (1 / 20)) by (split; [rewrite Rabs_pos_eq; lra|]; split; [lra|]; intros _; lra).
  assert (CA2 : calm kind 5 1 11 1 (1 / 10) (1 / 20)) by (split; [rewrite Rabs_pos_eq; lra|]; split; [lra|]; intros _; lra).
  assert (J0 : (0 <= 5)%Z) by lia. destruct (ctor_ok _ _ _ _ _ _ _ _ _ _ _ _ _ _ _ J0 E1) as (_ & _ & _ & _ & _ & _ & _ & I1 & _).
  destruct (ctor_ok _ _ _ _ _ _ _ _ _ _ _ _ _ _ _ J0 E2) as (_ & _ & _ & _ & _ & _ & _ & I2 & _).
  destruct (C131_price kind lu 4 5 1 11 2 o o cf1 s1 cf2 s2 w1 w2 (mkStock (3 / 2) (3 / 4) (Some (1 / 20))) (mkStock (3 / 2) 1 (Some (1 / 20))) G V1 V2 I1 I2)
    as (p1 & p2 & s1' & s2' & SO & B); try reflexivity; try exact CA1; try exact CA2; try (cbn; lra).
  destruct (C130_put_price_partial kind lu 4 5 1 11 2 o cf1 s1 w1 (mkStock (3 / 2) (3 / 4) (Some (1 / 20))) G V1 I1) as (P & t1 & Q1 & Q2 & Q3 & Q4); try reflexivity; try exact CA1; try (cbn; lra).
  destruct (SO 10%nat) as [A1 A2]; [cbn; lia|]. specialize (Q1 10%nat ltac:(cbn; lia)). rewrite A1 in Q1. injection Q1 as EP ES. subst t1.
  exists cf1, s1, cf2, s2, p1, p2, s1', s2', P. repeat (split; [assumption|]).
  split; [apply (Q2 (w (3 / 4) 1) (mkStock 1 (3 / 4) (Some (1 / 20)))); reflexivity|].
  split; [apply (Q2 (w (3 / 4) 2) (mkStock 2 (3 / 4) (Some (1 / 20)))); reflexivity|].
  cbn [S_] in EP. pose proof (Q3 (3 / 2) 2 ltac:(lra) ltac:(lra)) as L1. pose proof (Q4 1 2 (1 / 2) ltac:(lra) ltac:(lra) ltac:(lra)) as L2.
  replace (1 / 2 * 1 + (1 - 1 / 2) * 2) with (3 / 2) in L2 by field. lra.
Qed.
