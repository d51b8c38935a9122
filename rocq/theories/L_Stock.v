From Coq Require Import List ZArith Reals Lra Bool String.
From Flocq Require Import Core BinarySingleNaN.
From Verif Require Import M_Num M_Outcome M_Stock M_Market S_Double S_Market L_B64.
Import ListNotations.

(** ** generic facts *)
Section Gen.
Context {T : Type} {num : Num T}.

Lemma validate_accepts : forall d : StockData T,
  validate d = if accepts (S_ d) (sigma_ d) (c_ d) then Ok tt else Throw InvalidArgument.
Proof.
  intros [p s c]. unfold validate, accepts; simpl.
  destruct (nleb p n0); simpl; auto. destruct (nltb s n0); simpl; auto.
  destruct c as [x|]; auto. destruct (nltb x n0), (nltb n1 x); auto.
Qed.

Lemma ctor_accepts : forall p s c,
  StockData_ctor p s c = if accepts p s c then Ok (mkStock p s c) else Throw InvalidArgument.
Proof.
  intros. unfold StockData_ctor. rewrite validate_accepts. simpl.
  destruct (accepts p s c); auto.
Qed.

Lemma stock_neqb_negb : forall d e : StockData T, stock_neqb d e = negb (stock_eqb d e).
Proof. reflexivity. Qed.
End Gen.

(** ** binary64 *)
Local Open Scope R_scope.

Lemma Rle_bool_iff : forall a b, Rle_bool a b = true <-> a <= b.
Proof. intros. destruct (Rle_bool_spec a b); split; auto; try discriminate. lra. Qed.
Lemma Rlt_bool_iff : forall a b, Rlt_bool a b = true <-> a < b.
Proof. intros. destruct (Rlt_bool_spec a b); split; auto; try discriminate. lra. Qed.

Lemma accepts_valid : forall p s c, nan_free p s c ->
  (accepts p s c = true <-> valid_stock p s c).
Proof.
  intros p s c (Np & Ns & Nc). unfold accepts, valid_stock.
  change (@nleb b64 B64_basic) with b64_leb. change (@nltb b64 B64_basic) with b64_ltb.
  rewrite leb_val, ltb_val by (easy || apply n0_notnan). rewrite n0_val.
  destruct (Rle_bool_spec (val p) 0); simpl.
  { split; intros H0; try discriminate. lra. }
  destruct (Rlt_bool_spec (val s) 0); simpl.
  { split; intros H1; try discriminate. lra. }
  destruct c as [x|].
  - rewrite !ltb_val by (easy || apply n0_notnan || apply n1_notnan). rewrite n0_val, n1_val.
    destruct (Rlt_bool_spec (val x) 0), (Rlt_bool_spec 1 (val x)); simpl; split; intros HH; try discriminate; try lra; auto.
  - split; auto.
Qed.

Lemma stock_ctor_valid : forall p s c, nan_free p s c -> valid_stock p s c ->
  exists d, StockData_ctor p s c = Ok d /\ getPrice d = p /\ getSigma d = s /\ getCoupon d = c.
Proof.
  intros p s c N V. rewrite ctor_accepts. rewrite (proj2 (accepts_valid _ _ _ N) V).
  now exists (mkStock p s c).
Qed.

Lemma stock_ctor_invalid : forall p s c, nan_free p s c -> ~ valid_stock p s c ->
  StockData_ctor p s c = Throw InvalidArgument.
Proof.
  intros p s c N V. rewrite ctor_accepts.
  destruct (accepts p s c) eqn:E; auto. exfalso. apply V. now apply accepts_valid.
Qed.

(** Exact acceptance set on all doubles: NaN is treated as acceptable in each field. *)
Definition nan_or (x : b64) (P : Prop) : Prop := is_nan x = true \/ P.

Lemma stock_ctor_all : forall p s c,
  (exists d, StockData_ctor p s c = Ok d) <->
  nan_or p (0 < val p) /\ nan_or s (0 <= val s) /\
  match c with None => True | Some x => nan_or x (0 <= val x <= 1) end.
Proof.
  intros p s c. rewrite ctor_accepts. unfold accepts.
  change (@nleb b64 B64_basic) with b64_leb. change (@nltb b64 B64_basic) with b64_ltb.
  assert (P : negb (b64_leb p n0) = true <-> nan_or p (0 < val p)).
  { unfold nan_or. destruct (is_nan p) eqn:N.
    - rewrite leb_nan_l by easy. split; auto.
    - rewrite leb_val by (easy || apply n0_notnan). rewrite n0_val.
      destruct (Rle_bool_spec (val p) 0); simpl; split; auto; try discriminate.
      intros [K|K]; [discriminate|lra]. }
  assert (Q : negb (b64_ltb s n0) = true <-> nan_or s (0 <= val s)).
  { unfold nan_or. destruct (is_nan s) eqn:N.
    - rewrite ltb_nan_l by easy. split; auto.
    - rewrite ltb_val by (easy || apply n0_notnan). rewrite n0_val.
      destruct (Rlt_bool_spec (val s) 0); simpl; split; auto; try discriminate.
      intros [K|K]; [discriminate|lra]. }
  assert (R : match c with None => true | Some x => negb (b64_ltb x n0) && negb (b64_ltb n1 x) end = true <->
              match c with None => True | Some x => nan_or x (0 <= val x <= 1) end).
  { destruct c as [x|]; [|tauto]. unfold nan_or. destruct (is_nan x) eqn:N.
    - rewrite ltb_nan_l, ltb_nan_r by easy. split; auto.
    - rewrite !ltb_val by (easy || apply n0_notnan || apply n1_notnan). rewrite n0_val, n1_val.
      destruct (Rlt_bool_spec (val x) 0), (Rlt_bool_spec 1 (val x)); simpl; split; auto; try discriminate;
        try (intros [K|K]; [discriminate|lra]); intros; right; lra. }
  rewrite <- P, <- Q, <- R.
  destruct (negb (b64_leb p n0)), (negb (b64_ltb s n0)),
    (match c with None => true | Some x => negb (b64_ltb x n0) && negb (b64_ltb n1 x) end);
    simpl; split; intros HH; try (destruct HH; discriminate); try (destruct HH as (?&?&?); discriminate);
    eauto.
Qed.

(** ** equality *)
Lemma stock_eqb_iff : forall d e : StockData b64,
  stock_eqb d e = true <->
  b64_eqb (S_ d) (S_ e) = true /\ b64_eqb (sigma_ d) (sigma_ e) = true /\
  match c_ d, c_ e with
  | None, None => True
  | Some x, Some y => b64_eqb x y = true
  | _, _ => False
  end.
Proof.
  intros [p s c] [p' s' c']. unfold stock_eqb; simpl.
  change (@neqb b64 B64_basic) with b64_eqb.
  destruct (b64_eqb p p') eqn:E1, (b64_eqb s s') eqn:E2; simpl;
    try (split; intros H; [discriminate|destruct H as (?&?&?); discriminate]).
  destruct c as [x|], c' as [y|]; simpl; try (split; [discriminate | tauto]); try (split; auto);
    destruct (b64_eqb x y); simpl; intuition discriminate.
Qed.

Lemma stock_eqb_numeric : forall d e : StockData b64,
  nan_free (S_ d) (sigma_ d) (c_ d) -> nan_free (S_ e) (sigma_ e) (c_ e) ->
  (stock_eqb d e = true <->
   val (S_ d) = val (S_ e) /\ val (sigma_ d) = val (sigma_ e) /\ same_coupon (c_ d) (c_ e)).
Proof.
  intros [p s c] [p' s' c'] (N1&N2&N3) (M1&M2&M3). rewrite stock_eqb_iff. simpl in *.
  rewrite !eqb_true_iff. unfold same_coupon.
  destruct c as [x|], c' as [y|]; try rewrite eqb_true_iff; intuition.
Qed.

Lemma eqb_sym64 : forall x y, b64_eqb x y = b64_eqb y x.
Proof.
  intros x y. destruct (b64_eqb x y) eqn:E, (b64_eqb y x) eqn:E'; auto;
  [apply eqb_true_iff in E | apply eqb_true_iff in E'];
  [assert (b64_eqb y x = true) by (apply eqb_true_iff; intuition)
  |assert (b64_eqb x y = true) by (apply eqb_true_iff; intuition)]; congruence.
Qed.

Lemma stock_eqb_sym : forall d e : StockData b64, stock_eqb d e = stock_eqb e d.
Proof.
  intros d e. apply eq_true_iff_eq. rewrite !stock_eqb_iff.
  rewrite (eqb_sym64 (S_ e)), (eqb_sym64 (sigma_ e)).
  destruct (c_ d), (c_ e); try tauto. now rewrite (eqb_sym64 b0).
Qed.

Lemma stock_eqb_trans : forall d e f : StockData b64,
  stock_eqb d e = true -> stock_eqb e f = true -> stock_eqb d f = true.
Proof.
  intros d e f. rewrite !stock_eqb_iff, !eqb_true_iff.
  destruct (c_ d), (c_ e), (c_ f); rewrite ?eqb_true_iff; intuition; congruence.
Qed.

Lemma stock_eqb_refl_iff : forall d : StockData b64,
  stock_eqb d d = true <-> nan_free (S_ d) (sigma_ d) (c_ d).
Proof.
  intros d. rewrite stock_eqb_iff, !eqb_true_iff. unfold nan_free.
  destruct (c_ d); rewrite ?eqb_true_iff; intuition.
Qed.
