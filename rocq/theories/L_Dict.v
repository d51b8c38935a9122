From Coq Require Import String List Lia Arith.
From Verif Require Import M_Dict.
Import ListNotations.

Lemma dget_dset_same : forall A k (v : A) d, dget k (dset k v d) = Some v.
Proof.
  induction d as [|[k' v'] d IH]; simpl.
  - now rewrite String.eqb_refl.
  - destruct (String.eqb k k') eqn:E; simpl; rewrite ?String.eqb_refl, ?E; auto.
Qed.

Lemma dget_dset_other : forall A k k' (v : A) d, k' <> k -> dget k' (dset k v d) = dget k' d.
Proof.
  intros A k k' v d N. induction d as [|[q w] d IH]; simpl.
  - destruct (String.eqb_spec k' k); [contradiction|easy].
  - destruct (String.eqb_spec k q); simpl.
    + subst. destruct (String.eqb_spec k' q); [contradiction|easy].
    + now rewrite IH.
Qed.

Lemma lset_length : forall A i (x : A) l, length (lset i x l) = length l.
Proof. intros A i x l. revert i. induction l; destruct i; simpl; auto. Qed.

Lemma nth_lset_same : forall A i (x : A) l, i < length l -> nth_error (lset i x l) i = Some x.
Proof.
  intros A i x l. revert i. induction l; destruct i; simpl; intros; auto; try lia.
  apply IHl. lia.
Qed.

Lemma nth_lset_other : forall A i j (x : A) l, i <> j -> nth_error (lset i x l) j = nth_error l j.
Proof.
  intros A i j x l. revert i j. induction l; destruct i, j; simpl; intros; auto; try lia.
Qed.

Lemma lset_none : forall A i (x : A) l, length l <= i -> lset i x l = l.
Proof.
  intros A i x l. revert i. induction l; destruct i; simpl; intros; auto; try lia.
  f_equal. apply IHl. lia.
Qed.
