From Coq Require Import ZArith Reals Bool Lra Lia.
From Flocq Require Import Core BinarySingleNaN.
From Verif Require Import M_Num M_Outcome M_Payoff M_Option S_Double S_Option L_B64 L_Stock.
Local Open Scope R_scope.

Ltac b64ops :=
  change (@nleb b64 B64_basic) with b64_leb in *; change (@nltb b64 B64_basic) with b64_ltb in *;
  change (@neqb b64 B64_basic) with b64_eqb in *; change (@nsub b64 B64_basic) with b64_sub in *;
  change (@nadd b64 B64_basic) with b64_add in *.

(** ** max(d, 0) *)
Lemma max0_val : forall d : b64, notnan d ->
  notnan (nmax d n0) /\ val (nmax d n0) = Rmax 0 (val d).
Proof.
  intros d N. unfold nmax. b64ops. rewrite ltb_val by (auto using n0_notnan). rewrite n0_val.
  destruct (Rlt_bool_spec (val d) 0).
  - split; [apply n0_notnan|]. rewrite n0_val, Rmax_left; lra.
  - split; auto. rewrite Rmax_right; lra.
Qed.

Lemma vanilla_call_val : forall S K : b64, finite S -> finite K ->
  exists v, payoff1 (PVanilla Call K) S = Ok v /\ notnan v /\ val v = Rmax 0 (fl (val S - val K)).
Proof.
  intros S K FS FK. eexists. split; [reflexivity|]. simpl PayoffType_eqb. cbv iota. b64ops.
  destruct (val_sub S K FS FK) as [N V]. destruct (max0_val _ N) as [N' V'].
  split; auto. now rewrite V', V.
Qed.
Lemma vanilla_put_val : forall S K : b64, finite S -> finite K ->
  exists v, payoff1 (PVanilla Put K) S = Ok v /\ notnan v /\ val v = Rmax 0 (fl (val K - val S)).
Proof.
  intros S K FS FK. eexists. split; [reflexivity|]. simpl PayoffType_eqb. cbv iota. b64ops.
  destruct (val_sub K S FK FS) as [N V]. destruct (max0_val _ N) as [N' V'].
  split; auto. now rewrite V', V.
Qed.

Lemma val_0_cases : forall x : b64, notnan x -> val x = 0 -> exists s, x = B754_zero s.
Proof.
  intros [s|[|]| |s m e H] N V; simpl in V; try discriminate; eauto; try (pose proof INF_pos; lra).
  exfalso. unfold F2R in V; simpl in V. destruct s; simpl in V;
  apply Rmult_integral in V as [V|V]; try (apply eq_IZR in V; discriminate);
  pose proof (bpow_gt_0 radix2 e); lra.
Qed.

Lemma sub_zero_r : forall x s, notnan x -> notnan (b64_sub x (B754_zero s)) /\ val (b64_sub x (B754_zero s)) = val x.
Proof. intros [[|]|[|]| |[|] m e H] [|] N; try discriminate N; split; reflexivity. Qed.
Lemma sub_zero_l : forall x s, notnan x -> notnan (b64_sub (B754_zero s) x) /\ val (b64_sub (B754_zero s) x) = - val x.
Proof.
  intros [[|]|[|]| |[|] m e H] [|] N; try discriminate N; split; try reflexivity; simpl;
  (lra || (symmetry; rewrite <- F2R_Zopp; reflexivity)).
Qed.

Lemma vanilla_split : forall S K : b64, finite S -> finite K ->
  exists c p, payoff1 (PVanilla Call K) S = Ok c /\ payoff1 (PVanilla Put K) S = Ok p /\
    notnan c /\ notnan p /\ 0 <= val c /\ 0 <= val p /\ (val c = 0 \/ val p = 0) /\
    notnan (b64_sub c p) /\ val (b64_sub c p) = val (b64_sub S K).
Proof.
  intros S K FS FK. destruct (vanilla_call_val S K FS FK) as (c & Ec & Nc & Vc).
  destruct (vanilla_put_val S K FS FK) as (p & Ep & Np & Vp).
  exists c, p. rewrite (proj2 (val_sub S K FS FK)).
  assert (O : fl (val K - val S) = - fl (val S - val K)).
  { rewrite <- fl_opp. f_equal. lra. }
  rewrite O in Vp. set (d := fl (val S - val K)) in *.
  split; auto. split; auto. split; auto. split; auto.
  split; [rewrite Vc; apply Rmax_l|]. split; [rewrite Vp; apply Rmax_l|].
  destruct (Rle_dec 0 d) as [P|P].
  - rewrite Rmax_right in Vc by lra. rewrite Rmax_left in Vp by lra. split; auto.
    destruct (val_0_cases p Np Vp) as [s ->]. destruct (sub_zero_r c s Nc) as [A B].
    split; auto. now rewrite B.
  - rewrite Rmax_left in Vc by lra. rewrite Rmax_right in Vp by lra. split; auto.
    destruct (val_0_cases c Nc Vc) as [s ->]. destruct (sub_zero_l p s Np) as [A B].
    split; auto. rewrite B, Vp. lra.
Qed.

Definition okval (o : outcome b64) : R := match o with Ok v => val v | _ => 0 end.

Lemma vanilla_monotone : forall S1 S2 K1 K2 : b64,
  finite S1 -> finite S2 -> finite K1 -> finite K2 ->
  val S1 <= val S2 -> val K1 <= val K2 ->
  exists c12 c21 p12 p21,
    payoff1 (PVanilla Call K2) S1 = Ok c12 /\ payoff1 (PVanilla Call K1) S2 = Ok c21 /\
    payoff1 (PVanilla Put K2) S1 = Ok p12 /\ payoff1 (PVanilla Put K1) S2 = Ok p21 /\
    val c12 <= val c21 /\ val p21 <= val p12.
Proof.
  intros S1 S2 K1 K2 F1 F2 G1 G2 HS HK.
  destruct (vanilla_call_val S1 K2 F1 G2) as (c12 & E1 & _ & V1).
  destruct (vanilla_call_val S2 K1 F2 G1) as (c21 & E2 & _ & V2).
  destruct (vanilla_put_val S1 K2 F1 G2) as (p12 & E3 & _ & V3).
  destruct (vanilla_put_val S2 K1 F2 G1) as (p21 & E4 & _ & V4).
  exists c12, c21, p12, p21. repeat split; auto; rewrite ?V1, ?V2, ?V3, ?V4.
  - apply Rle_max_compat_l, fl_le. lra.
  - apply Rle_max_compat_l, fl_le. lra.
Qed.

(** Exact arithmetic. *)
Lemma vanilla_R : forall K S : R,
  payoff1 (PVanilla Call K) S = Ok (Rmax (S - K) 0) /\ payoff1 (PVanilla Put K) S = Ok (Rmax (K - S) 0).
Proof.
  intros. simpl. unfold nmax; simpl. change (n0 : R) with 0. split; f_equal.
  - destruct (Rlt_bool_spec (S - K) 0); [rewrite Rmax_right|rewrite Rmax_left]; auto; lra.
  - destruct (Rlt_bool_spec (K - S) 0); [rewrite Rmax_right|rewrite Rmax_left]; auto; lra.
Qed.

Lemma max_convex : forall a b l, 0 <= l <= 1 ->
  Rmax (l * a + (1 - l) * b) 0 <= l * Rmax a 0 + (1 - l) * Rmax b 0.
Proof.
  intros a b l L. pose proof (Rmax_l a 0). pose proof (Rmax_r a 0).
  pose proof (Rmax_l b 0). pose proof (Rmax_r b 0). apply Rmax_lub; nra.
Qed.

Lemma vanilla_convex : forall ty K S1 S2 l, (ty = Call \/ ty = Put) -> 0 <= l <= 1 ->
  exists v v1 v2 : R,
    payoff1 (PVanilla ty K) (l * S1 + (1 - l) * S2) = Ok v /\
    payoff1 (PVanilla ty K) S1 = Ok v1 /\ payoff1 (PVanilla ty K) S2 = Ok v2 /\
    v <= l * v1 + (1 - l) * v2 /\ Rabs (v1 - v2) <= Rabs (S1 - S2).
Proof.
  intros ty K S1 S2 l [-> | ->] L; do 3 eexists;
    do 3 (split; [first [exact (proj1 (vanilla_R _ _)) | exact (proj2 (vanilla_R _ _))]|]); split.
  - replace (l * S1 + (1 - l) * S2 - K) with (l * (S1 - K) + (1 - l) * (S2 - K)) by ring.
    now apply max_convex.
  - unfold Rabs, Rmax. repeat destruct (Rle_dec _ _); repeat destruct (Rcase_abs _); lra.
  - replace (K - (l * S1 + (1 - l) * S2)) with (l * (K - S1) + (1 - l) * (K - S2)) by ring.
    now apply max_convex.
  - unfold Rabs, Rmax. repeat destruct (Rle_dec _ _); repeat destruct (Rcase_abs _); lra.
Qed.

(** ** digital *)
Lemma digital_call : forall S K : b64, notnan S -> notnan K ->
  exists v, payoff1 (PDigital Call K) S = Ok v /\
    (val S > val K -> val v = 1) /\ (val S <= val K -> val v = 0).
Proof.
  intros S K NS NK. eexists. split; [reflexivity|]. simpl. b64ops. rewrite ltb_val by auto.
  destruct (Rlt_bool_spec (val K) (val S)); split; intros; rewrite ?n1_val, ?n0_val; lra.
Qed.
Lemma digital_put : forall S K : b64, notnan S -> notnan K ->
  exists v, payoff1 (PDigital Put K) S = Ok v /\
    (val S < val K -> val v = 1) /\ (val S >= val K -> val v = 0).
Proof.
  intros S K NS NK. eexists. split; [reflexivity|]. simpl. b64ops. rewrite ltb_val by auto.
  destruct (Rlt_bool_spec (val S) (val K)); split; intros; rewrite ?n1_val, ?n0_val; lra.
Qed.
Lemma digital_nan : forall ty S K, ~ notnan S \/ ~ notnan K ->
  payoff1 (PDigital ty K) S = Ok (n0 : b64).
Proof.
  intros ty S K H. simpl. b64ops.
  assert (A : b64_ltb K S = false /\ b64_ltb S K = false).
  { unfold notnan in H. destruct H as [H|H]; apply not_false_is_true in H.
    - split; [now apply ltb_nan_r|now apply ltb_nan_l].
    - split; [now apply ltb_nan_l|now apply ltb_nan_r]. }
  destruct A as [-> ->]. now destruct (PayoffType_eqb ty Call).
Qed.

Lemma digital_sum : forall S K : b64, notnan S -> notnan K ->
  exists c p, payoff1 (PDigital Call K) S = Ok c /\ payoff1 (PDigital Put K) S = Ok p /\
    (val S <> val K -> val (b64_add c p) = 1) /\ (val S = val K -> val c = 0 /\ val p = 0).
Proof.
  intros S K NS NK. do 2 eexists. split; [reflexivity|]. split; [reflexivity|]. simpl. b64ops.
  rewrite !ltb_val by auto.
  destruct (Rlt_bool_spec (val K) (val S)), (Rlt_bool_spec (val S) (val K)); split; intros; try lra;
    try (split; apply n0_val).
  - rewrite (proj2 (val_add n1 n0 n1_finite n0_finite)), n1_val, n0_val, Rplus_0_r.
    rewrite <- n1_val. apply fl_val; [apply n1_notnan|apply n1_finite].
  - rewrite (proj2 (val_add n0 n1 n0_finite n1_finite)), n1_val, n0_val, Rplus_0_l.
    rewrite <- n1_val. apply fl_val; [apply n1_notnan|apply n1_finite].
Qed.

Lemma double_digital : forall S KL KU : b64, notnan S -> notnan KL -> notnan KU ->
  exists v, payoff1 (PDoubleDigital KL KU) S = Ok v /\
    (val KL <= val S <= val KU -> val v = 1) /\ (~ (val KL <= val S <= val KU) -> val v = 0) /\
    (val KU < val KL -> val v = 0).
Proof.
  intros S KL KU N1 N2 N3. eexists. split; [reflexivity|]. simpl. b64ops. rewrite !leb_val by auto.
  destruct (Rle_bool_spec (val KL) (val S)), (Rle_bool_spec (val S) (val KU)); cbn [andb];
    rewrite ?n1_val, ?n0_val; repeat split; intros; try lra; exfalso; match goal with H : ~ _ |- _ => apply H; split; assumption end.
Qed.
Lemma double_digital_nan : forall S KL KU, ~ notnan S \/ ~ notnan KL \/ ~ notnan KU ->
  payoff1 (PDoubleDigital KL KU) S = Ok (n0 : b64).
Proof.
  intros S KL KU H. simpl. b64ops. unfold notnan in H.
  assert (A : b64_leb KL S && b64_leb S KU = false).
  { destruct H as [H|[H|H]]; apply not_false_is_true in H.
    - now rewrite leb_nan_r.
    - now rewrite leb_nan_l.
    - rewrite (leb_nan_r S) by auto. apply andb_false_r. }
  now rewrite A.
Qed.
(** ** floating strike *)
Lemma floating_val : forall (S X : b64), finite S -> finite X ->
  (exists v, payoff2 (PFloating Call) S X = Ok v /\ notnan v /\ val v = Rmax 0 (fl (val S - val X))) /\
  (exists v, payoff2 (PFloating Put) S X = Ok v /\ notnan v /\ val v = Rmax 0 (fl (val X - val S))).
Proof.
  intros S X F G. split; eexists; (split; [reflexivity|]); simpl PayoffType_eqb; cbv iota; b64ops.
  - destruct (val_sub S X F G) as [N V]. destruct (max0_val _ N) as [N' V']. split; auto. now rewrite V', V.
  - destruct (val_sub X S G F) as [N V]. destruct (max0_val _ N) as [N' V']. split; auto. now rewrite V', V.
Qed.

Lemma floating_spec : forall (S X : b64), finite S -> finite X ->
  (exists v, payoff2 (PFloating Call) S X = Ok v /\ notnan v /\ 0 <= val v /\
     (val X <= val S -> val v = val (b64_sub S X) /\ val v = fl (Rabs (val S - val X)))) /\
  (exists v, payoff2 (PFloating Put) S X = Ok v /\ notnan v /\ 0 <= val v /\
     (val S <= val X -> val v = val (b64_sub X S) /\ val v = fl (Rabs (val S - val X)))).
Proof.
  intros S X F G. destruct (floating_val S X F G) as [(v & E & N & V) (v' & E' & N' & V')].
  split; [exists v|exists v']; repeat split; auto; rewrite ?V, ?V'; try apply Rmax_l.
  - rewrite (proj2 (val_sub S X F G)). apply Rmax_right, fl_nonneg. lra.
  - rewrite Rabs_right by lra. apply Rmax_right, fl_nonneg. lra.
  - rewrite (proj2 (val_sub X S G F)). apply Rmax_right, fl_nonneg. lra.
  - rewrite Rabs_left1 by lra. replace (- (val S - val X)) with (val X - val S) by lra.
    apply Rmax_right, fl_nonneg. lra.
Qed.

(** ** equality *)
Lemma PayoffType_eqb_iff : forall a b, PayoffType_eqb a b = true <-> a = b.
Proof. intros [] []; simpl; split; congruence. Qed.

Lemma payoff_eqb_iff : forall p q : Payoff b64,
  payoff_eqb p q = true <-> strikes_nan_free p /\ strikes_nan_free q /\ same_payoff p q.
Proof.
  intros p q. unfold payoff_eqb, payoff_compare.
  destruct p, q; simpl; try (split; [discriminate|intros (_ & _ & [])]); b64ops;
    rewrite ?andb_true_iff, ?PayoffType_eqb_iff, ?eqb_true_iff; intuition congruence.
Qed.

Lemma payoff_eqb_refl : forall p : Payoff b64, payoff_eqb p p = true <-> strikes_nan_free p.
Proof.
  intros p. rewrite payoff_eqb_iff. destruct p; simpl; tauto.
Qed.
Lemma payoff_eqb_sym : forall p q : Payoff b64, payoff_eqb p q = payoff_eqb q p.
Proof.
  intros p q. apply eq_true_iff_eq. rewrite !payoff_eqb_iff.
  destruct p, q; simpl; intuition.
Qed.
Lemma payoff_eqb_trans : forall p q r : Payoff b64,
  payoff_eqb p q = true -> payoff_eqb q r = true -> payoff_eqb p r = true.
Proof.
  intros p q r. rewrite !payoff_eqb_iff. destruct p, q, r; simpl; intuition; congruence.
Qed.
Lemma payoff_clone_eq : forall p : Payoff b64, payoff_clone p = p.
Proof. now intros []. Qed.

Lemma payoff_eqb_clone : forall p : Payoff b64, payoff_eqb p (payoff_clone p) = true <-> strikes_nan_free p.
Proof. intros p. rewrite payoff_clone_eq. apply payoff_eqb_refl. Qed.

(** Doubles with equal value are identical or both zero. *)
Lemma val_inj : forall x y : b64, notnan x -> notnan y -> val x = val y ->
  x = y \/ exists s s', x = B754_zero s /\ y = B754_zero s'.
Proof.
  intros x y Nx Ny V.
  destruct (Req_dec (val x) 0) as [Z|Z].
  - right. destruct (val_0_cases x Nx Z) as [s ->].
    destruct (val_0_cases y Ny) as [s' ->]; [congruence|]. eauto.
  - left. destruct (notnan_cases x Nx) as [F|[->| ->]], (notnan_cases y Ny) as [G|[->| ->]]; auto;
      try (pose proof (val_bounds _ F)); try (pose proof (val_bounds _ G)); simpl in *; try lra;
      try (pose proof INF_pos; lra).
    rewrite !val_finite in * by auto. apply B2R_inj; auto.
    + destruct x; auto; simpl in *; try lra; discriminate.
    + destruct y; auto; simpl in *; try lra; discriminate.
Qed.

Lemma num_same_refl : forall x, num_same x x.
Proof. intros x. unfold num_same, notnan. destruct (is_nan x); [right|left]; auto. split; discriminate. Qed.

Lemma sub_zero_same_r : forall S s s',
  num_same (nmax (b64_sub S (B754_zero s)) n0) (nmax (b64_sub S (B754_zero s')) n0).
Proof.
  intros [[|]|[|]| |[|] m e H] [|] [|]; apply num_same_refl || (left; repeat split; reflexivity).
Qed.
Lemma sub_zero_same_l : forall S s s',
  num_same (nmax (b64_sub (B754_zero s) S) n0) (nmax (b64_sub (B754_zero s') S) n0).
Proof.
  intros [[|]|[|]| |[|] m e H] [|] [|]; apply num_same_refl || (left; repeat split; reflexivity).
Qed.

Lemma ltb_same : forall K K' S, notnan K -> notnan K' -> val K = val K' ->
  b64_ltb K S = b64_ltb K' S /\ b64_ltb S K = b64_ltb S K' /\
  b64_leb K S = b64_leb K' S /\ b64_leb S K = b64_leb S K'.
Proof.
  intros K K' S N N' V. destruct (is_nan S) eqn:NS.
  - now rewrite (ltb_nan_r K S), (ltb_nan_r K' S), (ltb_nan_l S K), (ltb_nan_l S K'),
      (leb_nan_r K S), (leb_nan_r K' S), (leb_nan_l S K), (leb_nan_l S K').
  - now rewrite !ltb_val, !leb_val, V by auto.
Qed.

Lemma payoff_eqb_values : forall p q : Payoff b64, payoff_eqb p q = true ->
  forall S X, out_same (payoff1 p S) (payoff1 q S) /\ out_same (payoff2 p S X) (payoff2 q S X).
Proof.
  intros p q E S X. apply payoff_eqb_iff in E as (N & N' & Sm).
  destruct p, q; simpl in Sm; try contradiction; simpl in N, N'; b64ops.
  - destruct Sm as [-> V]. split; [|reflexivity].
    destruct (val_inj K K0 N N' V) as [-> |(s & s' & -> & ->)];
      simpl; b64ops; destruct (PayoffType_eqb ty0 Call); try apply num_same_refl.
    + apply sub_zero_same_r.
    + apply sub_zero_same_l.
  - destruct Sm as [-> V]. split; [|reflexivity].
    destruct (ltb_same K K0 S N N' V) as (A & B & _). simpl; b64ops. rewrite A, B. apply num_same_refl.
  - destruct Sm as [V1 V2]. destruct N as [N1 N2], N' as [N1' N2']. split; [|reflexivity].
    destruct (ltb_same KL KL0 S N1 N1' V1) as (_ & _ & A & _).
    destruct (ltb_same KU KU0 S N2 N2' V2) as (_ & _ & _ & B).
    simpl; b64ops. rewrite A, B. apply num_same_refl.
  - subst. split; [reflexivity|]. simpl. apply num_same_refl.
Qed.

(** ** arity *)
Lemma payoff_arity : forall T (num : Num T) (p : Payoff T),
  ((forall S, isOk (payoff1 p S) = true) /\ (forall S X, payoff2 p S X = Throw LogicError)) \/
  ((forall S, payoff1 p S = Throw LogicError) /\ (forall S X, isOk (payoff2 p S X) = true)).
Proof. intros T num []; [left|left|left|right]; split; reflexivity. Qed.

(** ** constructors *)
Lemma not_negative : forall K : b64, nltb K n0 = false -> ~ notnan K \/ 0 <= val K.
Proof.
  intros K E. b64ops. unfold notnan. destruct (is_nan K) eqn:N; [left; congruence|right].
  rewrite <- n0_val. apply ltb_false_val; auto. apply n0_notnan.
Qed.
Lemma negative_lt : forall K : b64, val K < 0 -> nltb K n0 = true.
Proof.
  intros K H. b64ops. apply ltb_true_iff. split; [|split; [apply n0_notnan|now rewrite n0_val]].
  unfold notnan. destruct K; auto. simpl in H. lra.
Qed.

Lemma payoff_ctor_strikes : forall p : Payoff b64,
  (exists ty K, PayoffVanilla_ctor ty K = Ok p \/ PayoffDigital_ctor ty K = Ok p) \/
  (exists a b, PayoffDoubleDigital_ctor a b = Ok p) ->
  match p with
  | PVanilla _ K | PDigital _ K => ~ notnan K \/ 0 <= val K
  | PDoubleDigital a b => (~ notnan a \/ 0 <= val a) /\ (~ notnan b \/ 0 <= val b)
  | PFloating _ => True
  end.
Proof.
  pose proof not_negative as L.
  intros p [(ty & K & [H|H])|(a & b & H)].
  - unfold PayoffVanilla_ctor in H. destruct (nltb K n0) eqn:E; [discriminate|].
    destruct (negb (isCallPut ty)); [discriminate|]. injection H as <-. auto.
  - unfold PayoffDigital_ctor in H. destruct (nltb K n0) eqn:E; [discriminate|].
    destruct (negb (isCallPut ty)); [discriminate|]. injection H as <-. auto.
  - unfold PayoffDoubleDigital_ctor in H. destruct (nltb a n0) eqn:E; [discriminate|].
    destruct (nltb b n0) eqn:E'; [discriminate|]. injection H as <-. auto.
Qed.

(** ** barriers *)
Lemma barrier_touched : forall (B S : b64) d, notnan B -> notnan S ->
  knockIn_isActive B d S = negb (knockOut_isActive B d S) /\
  (knockIn_isActive B d S = true <-> match d with Up => val S >= val B | Down => val S <= val B end).
Proof.
  intros B S d N1 N2. unfold knockIn_isActive, knockOut_isActive. split.
  - now rewrite negb_involutive.
  - destruct d; unfold barrier_isActive; b64ops; rewrite leb_val by auto; rewrite Rle_bool_iff; lra.
Qed.
