(** Lemmas on interpolation, the interval search and the Thomas algorithm. *)
From Coq Require Import List ZArith Bool Lia Reals Lra.
From Flocq Require Import Core BinarySingleNaN.
From Verif Require Import M_Num M_Outcome M_Numeric S_Double S_Numeric L_B64.
Import ListNotations.
Local Open Scope R_scope.

Lemma vget_nat : forall A (l : list A) n, vget l (Z.of_nat n) =
  match nth_error l n with Some x => Ok x | None => UB end.
Proof.
  intros. unfold vget. destruct (Z.ltb_spec (Z.of_nat n) 0); [lia|]. now rewrite Nat2Z.id.
Qed.
Lemma vget_some : forall A (l : list A) i x, (0 <= i)%Z ->
  nth_error l (Z.to_nat i) = Some x -> vget l i = Ok x.
Proof. intros A l i x H E. rewrite <- (Z2Nat.id i) by easy. rewrite vget_nat. now rewrite E. Qed.
Lemma vget_none : forall A (l : list A) i, (Z.of_nat (length l) <= i)%Z -> vget l i = UB.
Proof.
  intros A l i H. rewrite <- (Z2Nat.id i) by lia. rewrite vget_nat.
  destruct (nth_error l (Z.to_nat i)) eqn:E; [|easy].
  apply (f_equal (fun o => match o with Some _ => true | None => false end)) in E.
  assert (nth_error l (Z.to_nat i) = None) as N by (apply nth_error_None; lia). now rewrite N in E.
Qed.
Lemma vback_nth : forall A (l : list A), l <> [] ->
  exists x, nth_error l (length l - 1) = Some x /\ vback l = Ok x.
Proof.
  intros A l N. destruct (exists_last N) as (l' & x & ->). exists x.
  unfold vback. rewrite rev_unit. split; [|easy].
  rewrite app_length. cbn [length]. rewrite nth_error_app2 by lia.
  now replace (length l' + 1 - 1 - length l')%nat with 0%nat by lia.
Qed.
Lemma nth_some : forall A (l : list A) n, (n < length l)%nat -> exists x, nth_error l n = Some x.
Proof.
  intros A l n H. destruct (nth_error l n) eqn:E; [eauto|]. apply nth_error_None in E. lia.
Qed.
Lemma nth_lt : forall A (l : list A) n x, nth_error l n = Some x -> (n < length l)%nat.
Proof. intros. apply nth_error_Some. congruence. Qed.

(** ** Locating the query, for any ordered reading of the numbers *)
Section Order.
Context {T : Type} {num : Num T}.
Variable v : T -> R.
Variable good : T -> Prop.
Hypothesis LT : forall x y, good x -> good y -> nltb x y = Rlt_bool (v x) (v y).
Hypothesis LE : forall x y, good x -> good y -> nleb x y = Rle_bool (v x) (v y).
Variable xs : list T.
Hypothesis G : Forall good xs.
Hypothesis INC : increasing v xs.
Variable x : T.
Hypothesis GX : good x.

Lemma nth_good : forall i y, nth_error xs i = Some y -> good y.
Proof. intros i y E. rewrite Forall_forall in G. apply G. eapply nth_error_In; eauto. Qed.

Lemma increasing_le : forall i j a b, (i <= j)%nat -> nth_error xs i = Some a -> nth_error xs j = Some b -> v a <= v b.
Proof.
  intros i j a b H A B. destruct (Nat.eq_dec i j) as [->|D].
  - rewrite A in B. injection B as <-. lra.
  - apply Rlt_le, (INC i j); auto. lia.
Qed.

(** Strictly inside the grid. *)
Definition inside : Prop := exists a b,
  nth_error xs 0 = Some a /\ nth_error xs (length xs - 1) = Some b /\ v a < v x < v b.

Definition in_interval (k : nat) : Prop := exists a b,
  nth_error xs k = Some a /\ nth_error xs (Datatypes.S k) = Some b /\ v a <= v x <= v b.

Definition in_half (k : nat) : Prop := exists a b,
  nth_error xs k = Some a /\ nth_error xs (Datatypes.S k) = Some b /\ v a <= v x < v b.

Lemma clamp_cases : forall ys (rest : outcome T), xs <> [] ->
  let r := bind (vfront xs) (fun x0 => if nleb x x0 then vfront ys else
           bind (vback xs) (fun xn => if nleb xn x then vback ys else rest)) in
  (exists a, nth_error xs 0 = Some a /\ v x <= v a /\ r = vfront ys) \/
  (exists a b, nth_error xs 0 = Some a /\ nth_error xs (length xs - 1) = Some b /\ v a < v x /\ v b <= v x /\ r = vback ys) \/
  (inside /\ r = rest).
Proof.
  intros ys rest N. destruct (vback_nth _ xs N) as (b & B & EB). rewrite EB. cbn [bind].
  destruct xs as [|a l] eqn:E; [easy|]. cbn [vfront bind]. rewrite <- E in *.
  assert (A : nth_error xs 0 = Some a) by now rewrite E.
  rewrite LE by (eauto using nth_good). destruct (Rle_bool_spec (v x) (v a)).
  - left. eauto.
  - rewrite LE by (eauto using nth_good). destruct (Rle_bool_spec (v b) (v x)).
    + right. left. exists a, b. auto.
    + right. right. split; [exists a, b|]; auto.
Qed.

Lemma linear_loop_ok : forall ys n i, (0 < i)%nat -> (i + n = length xs)%nat -> inside ->
  (exists a, nth_error xs (i - 1) = Some a /\ v a <= v x) ->
  exists k, in_half k /\ linear_loop xs ys x n (Z.of_nat i) = line xs ys x (Z.of_nat k).
Proof.
  intros ys. induction n as [|n IH]; intros i P L IN (a & A & Ha).
  - exfalso. destruct IN as (a' & b & _ & B & [_ H]).
    replace (i - 1)%nat with (length xs - 1)%nat in A by lia. rewrite A in B. injection B as <-. lra.
  - cbn [linear_loop]. destruct (nth_some _ xs i ltac:(lia)) as (y & Y).
    rewrite vget_nat, Y. cbn [bind]. rewrite LT by (eauto using nth_good).
    destruct (Rlt_bool_spec (v x) (v y)).
    + exists (i - 1)%nat. split.
      * exists a, y. replace (Datatypes.S (i - 1)) with i by lia. repeat split; auto.
      * f_equal. lia.
    + replace (Z.of_nat i + 1)%Z with (Z.of_nat (Datatypes.S i)) by lia. apply IH; auto; try lia.
      exists y. now rewrite Nat.sub_succ, Nat.sub_0_r.
Qed.

Lemma linear_half : forall ys, inside ->
  exists k, in_half k /\ linear_loop xs ys x (length xs - 1) 1 = line xs ys x (Z.of_nat k).
Proof.
  intros ys I. change 1%Z with (Z.of_nat 1). apply linear_loop_ok; auto.
  - destruct I as (a & b & A & B & H). apply nth_lt in A. lia.
  - destruct I as (a & b & A & B & H). exists a. split; [easy|lra].
Qed.
Lemma linear_inside : forall ys, inside ->
  exists k, in_interval k /\ linear_loop xs ys x (length xs - 1) 1 = line xs ys x (Z.of_nat k).
Proof.
  intros ys I. destruct (linear_half ys I) as (k & (a & b & A & B & H) & E). exists k. split; [|easy].
  exists a, b. repeat split; auto; lra.
Qed.

Lemma search_ok : forall fuel low high, (Z.of_nat (length xs) <= UINT_MOD)%Z -> inside ->
  (high - low < fuel)%nat -> (high < length xs)%nat ->
  (exists a, nth_error xs low = Some a /\ v a < v x) ->
  ((high = length xs - 1)%nat \/ exists b, nth_error xs (Datatypes.S high) = Some b /\ v x < v b) ->
  exists k, in_interval k /\ search fuel xs x (Z.of_nat low) (Z.of_nat high) = Ok (Z.of_nat k).
Proof.
  intros fuel low high SZ IN. revert low high.
  induction fuel as [|fuel IH]; intros low high F H (a & A & Ha) B; [lia|].
  assert (LH : (low <= high)%nat).
  { destruct B as [->|(b & B & Hb)].
    - apply nth_lt in A. lia.
    - destruct (Nat.le_gt_cases low high); [easy|].
      pose proof (increasing_le (Datatypes.S high) low b a ltac:(lia) B A). lra. }
  cbn [search]. destruct (Z.leb_spec (Z.of_nat low) (Z.of_nat high)); [|lia].
  assert (M : exists mid, ((Z.of_nat low + (Z.of_nat high - Z.of_nat low) / 2) mod UINT_MOD = Z.of_nat mid)%Z
              /\ (low <= mid <= high)%nat).
  { exists (low + (high - low) / 2)%nat.
    assert (E : (Z.of_nat low + (Z.of_nat high - Z.of_nat low) / 2 = Z.of_nat (low + (high - low) / 2))%Z).
    { rewrite Nat2Z.inj_add, Nat2Z.inj_div, Nat2Z.inj_sub by easy. reflexivity. }
    assert ((high - low) / 2 <= high - low)%nat by (apply Nat.div_le_upper_bound; lia).
    rewrite E. split; [|lia]. apply Z.mod_small. lia. }
  destruct M as (mid & -> & [M1 M2]).
  destruct (nth_some _ xs mid ltac:(lia)) as (xm & XM). rewrite vget_nat, XM. cbn [bind].
  rewrite LE, LT by (eauto using nth_good).
  assert (IN' := IN). destruct IN' as (x0 & xn & X0 & XN & [HL HN]).
  destruct (Rle_bool_spec (v xm) (v x)) as [C|C].
  - assert (D : mid <> (length xs - 1)%nat) by (intros ->; rewrite XN in XM; injection XM as <-; lra).
    replace ((Z.of_nat mid + 1) mod UINT_MOD)%Z with (Z.of_nat (Datatypes.S mid)) by (rewrite Z.mod_small; lia).
    destruct (nth_some _ xs (Datatypes.S mid) ltac:(lia)) as (xm1 & XM1). rewrite vget_nat, XM1. cbn [bind].
    rewrite LE by (eauto using nth_good). destruct (Rle_bool_spec (v x) (v xm1)).
    + exists mid. split; [|easy]. exists xm, xm1. auto.
    + assert (v xm < v xm1) by (eapply (INC mid (Datatypes.S mid)); eauto).
      rewrite Rlt_bool_true by lra. 
      assert (Datatypes.S mid <= high)%nat.
      { destruct B as [->|(b & B & Hb)]; [lia|]. destruct (Nat.le_gt_cases (Datatypes.S mid) high); [easy|].
        replace (Datatypes.S mid) with (Datatypes.S high) in XM1 by lia. rewrite XM1 in B. injection B as <-. lra. }
      apply IH; auto; try lia. exists xm1. auto.
  - cbn [bind]. rewrite Rlt_bool_false by lra.
    assert (mid <> 0%nat) by (intros ->; rewrite X0 in XM; injection XM as <-; lra).
    assert (mid <> low) by (intros ->; rewrite A in XM; injection XM as <-; lra).
    replace ((Z.of_nat mid - 1) mod UINT_MOD)%Z with (Z.of_nat (mid - 1)) by (rewrite Z.mod_small; lia).
    apply IH; auto; try lia. 
    + exists a. auto.
    + right. exists xm. now replace (Datatypes.S (mid - 1)) with mid by lia.
Qed.

Lemma findInterval_ok : (Z.of_nat (length xs) <= UINT_MOD)%Z -> inside ->
  exists k, in_interval k /\ findInterval xs x = Ok (Z.of_nat k).
Proof.
  intros SZ I. unfold findInterval. assert (I' := I). destruct I' as (a & b & A & B & H).
  assert (0 < length xs)%nat by (apply nth_lt in A; lia).
  replace ((Z.of_nat (length xs) - 1) mod UINT_MOD)%Z with (Z.of_nat (length xs - 1)) by (rewrite Z.mod_small; lia).
  change 0%Z with (Z.of_nat 0). apply search_ok; auto; try lia. exists a. split; [easy|lra].
Qed.
End Order.

(** A query that compares false with everything (NaN) drives [high] below 0. *)
Section Unordered.
Context {T : Type} {num : Num T}.
Variable x : T.
Hypothesis NLT1 : forall y, nltb y x = false.
Hypothesis NLT2 : forall y, nltb x y = false.
Hypothesis NLE1 : forall y, nleb y x = false.
Hypothesis NLE2 : forall y, nleb x y = false.

Lemma search_unordered : forall (xs : list T) fuel high, (Z.of_nat (length xs) < 2147483648)%Z ->
  (0 <= high)%Z -> (high < Z.of_nat (length xs))%Z -> (high + 1 < Z.of_nat fuel)%Z ->
  search fuel xs x 0 high = UB.
Proof.
  intros xs fuel high SZ. revert high. induction fuel as [|fuel IH]; intros high P H F; [lia|].
  cbn [search]. destruct (Z.leb_spec 0 high); [|lia].
  assert (M : (0 <= high / 2 <= high)%Z).
  { split; [apply Z.div_pos; lia|apply Z.div_le_upper_bound; lia]. }
  replace ((0 + (high - 0) / 2) mod UINT_MOD)%Z with (high / 2)%Z.
  2:{ rewrite Z.sub_0_r, Z.add_0_l, Z.mod_small; [easy|]. unfold UINT_MOD. lia. }
  destruct (vget xs (high / 2)%Z) as [xm| |] eqn:E.
  2:{ unfold vget in E. destruct (_ <? 0)%Z; [discriminate|]. destruct (nth_error _ _); discriminate. }
  2:{ easy. }
  cbn [bind]. rewrite NLE1, NLT1. cbn [bind].
  destruct (Z.eq_dec (high / 2) 0) as [Z|Z].
  - rewrite Z. replace ((0 - 1) mod UINT_MOD)%Z with 4294967295%Z by reflexivity.
    destruct fuel; [easy|]. cbn [search]. cbn [Z.leb Z.compare].
    replace ((0 + (4294967295 - 0) / 2) mod UINT_MOD)%Z with 2147483647%Z by reflexivity.
    now rewrite vget_none by lia.
  - rewrite Z.mod_small by (unfold UINT_MOD; lia). apply IH; lia.
Qed.
End Unordered.
