(** Property C108: which accepted models can be run on a pseudo-random generator. *)
From Coq Require Import String List ZArith Bool Lia.
From Flocq Require Import Core BinarySingleNaN.
From Verif Require Import M_Num M_Outcome M_Dict M_Stock M_Market M_Payoff M_Option M_Random M_Model
  M_Regression M_MonteCarlo M_Builder S_Double S_Pseudo S_Quasi S_MonteCarlo S_McPaths S_Option
  L_Option L_MonteCarlo L_McPaths L_Pseudo P_Quasi.
Import ListNotations.

(** ** C108 *)
(** Exactly: a run returns a price when the arguments of the distributions are positive, and
    throws std::invalid_argument otherwise. *)
Theorem C108_exact_partial : forall T (num : Num T) env la (P : Pricer T) W w wm g N d,
  nleb (n1 : T) n0 = false ->
  lives_in P W w wm g -> pcClass P <> CAmerican ->
  accepts (pcClass P) (optKind (pcOption P)) = true -> made (pcOption P) ->
  deref (mdStock (moModel (pcModel P))) wm = Ok d ->
  gQuasi g = None -> (1 <= gDim g <= INT_MAX)%Z -> (1 <= N <= INT_MAX)%Z ->
  let price := fst (calculatePrice env la P W N) in
  let u := usable (mdKind (moModel (pcModel P))) (ndiv (optT (pcOption P)) (nofZ (gDim g))) in
  ((exists v, price = Ok v) <-> u = true) /\ (price = Throw InvalidArgument <-> u = false).
Proof.
  intros T num env la P W w wm g N d ONE L NA A MO D Q DIM LN price u.
  destruct (made_pays _ _ _ _ MO A NA) as [HB HP].
  destruct (pseudo_price env (gDim g) DIM ONE la P W w wm g N d L NA A HB HP D (conj Q eq_refl) LN) as [X Y].
  fold price u in X, Y. destruct u.
  - destruct (X eq_refl) as [v V]. rewrite V. split; split; try easy. intros _. now exists v.
  - rewrite (Y eq_refl). split; split; try easy. now intros [v V].
Qed.
Print Assumptions C108_exact_partial.

(** The constructors accept a Merton model without jumps, a Kou model whose downward jumps
    have rate 0, and an option that expires now.  None of these can be priced. *)
Definition j_world (rd : Z) : World b64 := mkWorld [j_market] [Pseudo_ctor1 252 rd].

Theorem C108_refuted : forall fexp flog, exists still kou merton : ModelKind b64,
  @Merton_ctor b64 (B64 fexp flog) "AAPL" j_market (b64_ofZ 0) (b64_ofZ 0) (b64_ofZ 1) = Ok (mkModel "AAPL" 0 still) /\
  @Kou_ctor b64 (B64 fexp flog) "AAPL" j_market (b64_ofZ 1) (b64_ofZ 1) (b64_ofZ 3) (b64_ofZ 0) = Ok (mkModel "AAPL" 0 kou) /\
  @Merton_ctor b64 (B64 fexp flog) "AAPL" j_market (b64_ofZ 1) (b64_ofZ 0) (b64_ofZ 1) = Ok (mkModel "AAPL" 0 merton) /\
  (forall t, b64_ltb t (b64_ofZ 0) = false -> @made b64 (B64 fexp flog) (j_option t)) /\
  forall env la rd N, (1 <= N <= INT_MAX)%Z ->
    let price t k := fst (@calculatePrice b64 (B64 fexp flog) env la (j_pricer t k) (j_world rd) N) in
    price (b64_ofZ 1) still = Throw InvalidArgument /\ price (b64_ofZ 1) kou = Throw InvalidArgument /\
    price (b64_ofZ 0) merton = Throw InvalidArgument /\
    (exists v, price (b64_ofZ 1) merton = Ok v) /\ (exists v, price (b64_ofZ 0) MGBM = Ok v).
Proof.
  intros fexp flog. do 3 eexists. split; [|split; [|split; [|split]]].
  - unfold Merton_ctor, StockModel_ctor. cbn [getStockData j_market mMap dget String.eqb Ascii.eqb Bool.eqb bind deref mHeap nth_error].
    replace (@nleb b64 (B64 fexp flog) (b64_ofZ 1) n0) with false by (vm_compute; reflexivity). reflexivity.
  - unfold Kou_ctor, StockModel_ctor. cbn [getStockData j_market mMap dget String.eqb Ascii.eqb Bool.eqb bind deref mHeap nth_error].
    replace (@nltb b64 (B64 fexp flog) (b64_ofZ 1) n0 || @nltb b64 (B64 fexp flog) n1 (b64_ofZ 1))%bool with false by (vm_compute; reflexivity).
    replace (@nltb b64 (B64 fexp flog) (b64_ofZ 3) n1) with false by (vm_compute; reflexivity).
    replace (@nltb b64 (B64 fexp flog) (b64_ofZ 0) n0) with false by (vm_compute; reflexivity). reflexivity.
  - unfold Merton_ctor, StockModel_ctor. cbn [getStockData j_market mMap dget String.eqb Ascii.eqb Bool.eqb bind deref mHeap nth_error].
    replace (@nleb b64 (B64 fexp flog) (b64_ofZ 1) n0) with false by (vm_compute; reflexivity). reflexivity.
  - apply j_made.
  - intros env la rd N LN price.
    assert (X : forall t k, b64_ltb t (b64_ofZ 0) = false ->
      ((exists v, price t k = Ok v) <-> @usable b64 (B64 fexp flog) k (b64_div t (b64_ofZ 252)) = true) /\
      (price t k = Throw InvalidArgument <-> @usable b64 (B64 fexp flog) k (b64_div t (b64_ofZ 252)) = false)).
    { intros t k H.
      apply (C108_exact_partial b64 (B64 fexp flog) env la (j_pricer t k) (j_world rd) j_market j_market (Pseudo_ctor1 252 rd) N
        (mkStock (b64_ofZ 100) (b64_ofZ 1) None) (one_not_zero fexp flog)); try easy; try exact LN.
      now apply j_made. }
    split; [|split; [|split; [|split]]].
    + apply X; vm_compute; reflexivity.
    + apply X; vm_compute; reflexivity.
    + apply X; vm_compute; reflexivity.
    + apply X; vm_compute; reflexivity.
    + apply X; vm_compute; reflexivity.
Qed.
Print Assumptions C108_refuted.
