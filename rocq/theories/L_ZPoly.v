(** Polynomials with integer coefficients: arithmetic, derivatives and a decision procedure
    for nonnegativity on an interval. *)
From Coq Require Import List ZArith Reals Lra Lia Bool.
From Coquelicot Require Import Coquelicot.
From Verif Require Import L_Poly.
Import ListNotations.
Local Open Scope R_scope.

Fixpoint zev (p : list Z) (x : R) : R := match p with [] => 0 | c :: q => IZR c + x * zev q x end.

Fixpoint zadd (p q : list Z) : list Z :=
  match p, q with [], _ => q | _, [] => p | a :: p', b :: q' => (a + b)%Z :: zadd p' q' end.
Definition zscal (k : Z) (p : list Z) : list Z := map (Z.mul k) p.
Fixpoint zmul (p q : list Z) : list Z :=
  match p with [] => [] | a :: p' => zadd (zscal a q) (0%Z :: zmul p' q) end.
Definition zsub (p q : list Z) : list Z := zadd p (zscal (-1) q).
Fixpoint zder (p : list Z) : list Z := match p with [] => [] | _ :: q => zadd q (0%Z :: zder q) end.

Lemma zev_add : forall p q x, zev (zadd p q) x = zev p x + zev q x.
Proof.
  induction p as [|a p IH]; intros q x; [cbn; lra|]. destruct q as [|b q]; [cbn; lra|]. cbn [zadd zev]. rewrite IH, plus_IZR. ring.
Qed.
Lemma zev_scal : forall k p x, zev (zscal k p) x = IZR k * zev p x.
Proof. intros k p x. induction p as [|a p IH]; [cbn; lra|]. cbn [zscal map zev]. unfold zscal in IH. rewrite IH, mult_IZR. ring. Qed.
Lemma zev_mul : forall p q x, zev (zmul p q) x = zev p x * zev q x.
Proof.
  induction p as [|a p IH]; intros q x; [cbn; lra|]. cbn [zmul zev]. rewrite zev_add, zev_scal. cbn [zev]. rewrite IH. ring.
Qed.
Lemma zev_sub : forall p q x, zev (zsub p q) x = zev p x - zev q x.
Proof. intros. unfold zsub. rewrite zev_add, zev_scal. ring. Qed.

Lemma zev_derive : forall p x, is_derive (zev p) x (zev (zder p) x).
Proof.
  induction p as [|a p IH]; intros x; [apply (is_derive_ext (fun _ => 0)); [easy|apply @is_derive_const]|].
  apply (is_derive_ext (fun y => IZR a + y * zev p y)); [easy|].
  evar_last. apply @is_derive_plus; [apply @is_derive_const|apply @is_derive_mult; [apply @is_derive_id|apply IH|exact Rmult_comm]].
  unfold plus, zero, mult, one; cbn. rewrite zev_add. cbn. ring.
Qed.

(** ** Nonnegativity *)
Fixpoint zlow (p : list Z) : Z := match p with [] => 0%Z | c :: q => (c + Z.min 0 (zlow q))%Z end.
Lemma zlow_ok : forall p t, 0 <= t <= 1 -> IZR (zlow p) <= zev p t.
Proof.
  induction p as [|c q IH]; intros t T; [cbn; lra|]. cbn [zlow zev]. rewrite plus_IZR. specialize (IH t T).
  destruct (Z.min_spec 0 (zlow q)) as [(L & ->)|(L & ->)]; apply IZR_lt in L || apply IZR_le in L; nra.
Qed.
Fixpoint zleft (p : list Z) : list Z := match p with [] => [] | c :: q => Z.shiftl c (Z.of_nat (length q)) :: zleft q end.
Fixpoint zshift (p : list Z) : list Z := match p with [] => [] | c :: q => let r := zshift q in zadd (c :: r) r end.

Lemma zleft_ok : forall p t, 2 * zev (zleft p) t = 2 ^ length p * zev p (t / 2).
Proof.
  induction p as [|c q IH]; intros t; [cbn; lra|]. cbn [zleft zev length]. rewrite Z.shiftl_mul_pow2, mult_IZR by lia.
  replace (IZR (2 ^ Z.of_nat (length q))) with (2 ^ length q) by (rewrite pow_IZR; reflexivity).
  replace (2 * (IZR c * 2 ^ length q + t * zev (zleft q) t)) with (2 * IZR c * 2 ^ length q + t * (2 * zev (zleft q) t)) by ring.
  rewrite IH. cbn [pow]. field.
Qed.
Lemma zshift_ok : forall p t, zev (zshift p) t = zev p (1 + t).
Proof.
  induction p as [|c q IH]; intros t; [reflexivity|]. cbn [zshift]. rewrite zev_add. cbn [zev]. rewrite IH. ring.
Qed.

(** Coefficients cut to about 100 bits, downwards: a lower bound for nonnegative arguments. *)
Definition zmax (p : list Z) : Z := fold_right (fun c m => Z.max (Z.abs c) m) 0%Z p.
Definition ztrim (p : list Z) : list Z :=
  let k := (Z.log2 (zmax p) - 100)%Z in if (k <=? 0)%Z then p else map (fun c => Z.shiftr c k) p.
Lemma ztrim_ok : forall p t, 0 <= t -> 0 <= zev (ztrim p) t -> 0 <= zev p t.
Proof.
  intros p t T. unfold ztrim. cbv zeta. set (k := (Z.log2 (zmax p) - 100)%Z). destruct (Z.leb_spec k 0) as [_|K]; [easy|]. intros H.
  assert (P : 0 < IZR (2 ^ k)) by (apply IZR_lt, Z.pow_pos_nonneg; lia).
  enough (IZR (2 ^ k) * zev (map (fun c => Z.shiftr c k) p) t <= zev p t) by nra. clear H. clearbody k. induction p as [|c q IH]; [cbn; lra|].
  cbn [map zev]. assert (C : IZR (2 ^ k) * IZR (Z.shiftr c k) <= IZR c).
  { rewrite <- mult_IZR. apply IZR_le. rewrite Z.shiftr_div_pow2 by lia. apply Z.mul_div_le. apply lt_IZR. exact P. }
  nra.
Qed.

Fixpoint znonneg (fuel : nat) (p0 : list Z) : bool :=
  let p := ztrim p0 in
  if (0 <=? zlow p)%Z then true
  else match fuel with
       | O => false
       | S f => let l := zleft p in znonneg f l && znonneg f (zshift l)
       end.
Lemma znonneg_ok : forall fuel p, znonneg fuel p = true -> forall t, 0 <= t <= 1 -> 0 <= zev p t.
Proof.
  induction fuel as [|f IH]; intros p0 H t T; cbn [znonneg] in H; cbv zeta in H; apply (ztrim_ok p0 t (proj1 T)); set (p := ztrim p0) in *; clearbody p;
    destruct (Z.leb_spec 0 (zlow p)) as [L|_].
  1,3: pose proof (zlow_ok p t T); apply IZR_le in L; lra.
  - discriminate.
  - apply andb_prop in H as (H1 & H2). assert (P : 0 < 2 ^ length p) by (apply pow_lt; lra).
    destruct (Rle_dec t (1 / 2)) as [G|G].
    + pose proof (IH _ H1 (2 * t) ltac:(lra)) as A. pose proof (zleft_ok p (2 * t)) as B. replace (2 * t / 2) with t in B by field. nra.
    + pose proof (IH _ H2 (2 * t - 1) ltac:(lra)) as A. rewrite zshift_ok in A. replace (1 + (2 * t - 1)) with (2 * t) in A by ring.
      pose proof (zleft_ok p (2 * t)) as B. replace (2 * t / 2) with t in B by field. nra.
Qed.

(** The polynomial of t with y = (A + W t) / D, times a power of D. *)
Fixpoint zcomp (p : list Z) (A W D : Z) : list Z :=
  match p with [] => [] | c :: q => zadd [(c * D ^ Z.of_nat (length q))%Z] (zmul [A; W] (zcomp q A W D)) end.
Lemma zcomp_ok : forall p A W D t, (0 < D)%Z -> IZR D * zev (zcomp p A W D) t = IZR D ^ length p * zev p ((IZR A + IZR W * t) / IZR D).
Proof.
  intros p A W D t D0. assert (DN : IZR D <> 0) by (apply not_0_IZR; lia).
  induction p as [|c q IH]; [cbn; lra|]. cbn [zcomp length]. rewrite zev_add, zev_mul. cbn [zev]. rewrite mult_IZR.
  replace (IZR (D ^ Z.of_nat (length q))) with (IZR D ^ length q) by (rewrite pow_IZR; reflexivity).
  replace (IZR D * (IZR c * IZR D ^ length q + t * 0 + (IZR A + t * (IZR W + t * 0)) * zev (zcomp q A W D) t))
    with (IZR D * IZR c * IZR D ^ length q + (IZR A + IZR W * t) * (IZR D * zev (zcomp q A W D) t)) by ring.
  rewrite IH. cbn [pow]. field. exact DN.
Qed.

Definition zcheck (fuel : nat) (p : list Z) (A W D : Z) : bool := ((0 <? D) && (0 <? W))%Z && znonneg fuel (zcomp p A W D).
Lemma zcheck_ok : forall fuel p A W D, zcheck fuel p A W D = true ->
  forall y, IZR A / IZR D <= y <= (IZR A + IZR W) / IZR D -> 0 <= zev p y.
Proof.
  intros fuel p A W D H y Y. unfold zcheck in H. apply andb_prop in H as (H & C). apply andb_prop in H as (D0 & W0).
  apply Z.ltb_lt in D0, W0. pose proof (IZR_lt _ _ D0) as D1. pose proof (IZR_lt _ _ W0) as W1.
  set (t := (y * IZR D - IZR A) / IZR W).
  assert (E : y * IZR D = IZR A + IZR W * t) by (unfold t; field; lra).
  assert (Y1 : IZR A <= y * IZR D). { destruct Y as (Y & _). apply (Rmult_le_compat_r (IZR D)) in Y; [|lra]. replace (IZR A / IZR D * IZR D) with (IZR A) in Y by (field; lra). exact Y. }
  assert (Y2 : y * IZR D <= IZR A + IZR W). { destruct Y as (_ & Y). apply (Rmult_le_compat_r (IZR D)) in Y; [|lra]. replace ((IZR A + IZR W) / IZR D * IZR D) with (IZR A + IZR W) in Y by (field; lra). exact Y. }
  assert (T : 0 <= t <= 1) by nra.
  pose proof (znonneg_ok fuel _ C t T) as P. pose proof (zcomp_ok p A W D t D0) as Q.
  replace ((IZR A + IZR W * t) / IZR D) with y in Q by (rewrite <- E; field; lra).
  assert (DP : 0 < IZR D ^ length p) by (apply pow_lt; lra). nra.
Qed.

(** ** The exponential series, times n! *)
Fixpoint zexp (n : nat) : list Z := match n with O => [1%Z] | S k => zadd (zscal (Z.of_nat n) (zexp k)) (repeat 0%Z n ++ [1%Z]) end.
Lemma zev_monomial : forall n c x, zev (repeat 0%Z n ++ [c]) x = IZR c * x ^ n.
Proof. induction n as [|n IH]; intros c x; [cbn; lra|]. cbn [repeat app zev]. rewrite IH. cbn. ring. Qed.
Lemma zexp_psum : forall n x, zev (zexp n) x = IZR (zfact n) * psum (S n) x.
Proof.
  induction n as [|n IH]; intros x; [cbn; field|]. cbn [zexp]. rewrite zev_add, zev_scal, IH, zev_monomial.
  change (psum (S (S n)) x) with (psum (S n) x + x ^ S n / IZR (zfact (S n))). pose proof (zfact_posR (S n)).
  rewrite Rmult_plus_distr_l. f_equal.
  - change (zfact (S n)) with (Z.of_nat (S n) * zfact n)%Z. rewrite mult_IZR. ring.
  - field. lra.
Qed.

(** Sign of a function from the sign of its derivative. *)
Lemma grows : forall (f f' : R -> R) a b, (forall t, a <= t <= b -> is_derive f t (f' t)) -> (forall t, a <= t <= b -> 0 <= f' t) ->
  forall x y, a <= x -> x <= y -> y <= b -> f x <= f y.
Proof.
  intros f f' a b D P x y A L B.
  destruct (MVT_gen f x y f') as (c & C & E).
  - intros t T. rewrite Rmin_left, Rmax_right in T by lra. apply D. lra.
  - intros t T. rewrite Rmin_left, Rmax_right in T by lra. apply continuity_pt_filterlim.
    apply (@ex_derive_continuous R_AbsRing R_NormedModule f). eexists. apply D. lra.
  - rewrite Rmin_left, Rmax_right in C by lra. specialize (P c ltac:(lra)). nra.
Qed.
Lemma drift_between : forall (f f' g g' : R -> R) e a b,
  (forall t, a <= t <= b -> is_derive f t (f' t)) -> (forall t, a <= t <= b -> is_derive g t (g' t)) ->
  (forall t, a <= t <= b -> Rabs (f' t - g' t) <= e) -> forall x y, a <= x <= b -> a <= y <= b ->
  Rabs ((f y - g y) - (f x - g x)) <= e * Rabs (y - x).
Proof.
  intros f f' g g' e a b DF DG H.
  assert (W : forall x y, a <= x -> x <= y -> y <= b -> Rabs ((f y - g y) - (f x - g x)) <= e * (y - x)).
  { intros x y A L B.
    assert (U : (fun t => e * t - (f t - g t)) x <= (fun t => e * t - (f t - g t)) y).
    { apply (grows (fun t => e * t - (f t - g t)) (fun t => e - (f' t - g' t)) a b); try easy.
      - intros t T. specialize (DF t T). specialize (DG t T).
        apply (is_derive_minus (fun t => e * t) (fun t => f t - g t)); [auto_derive; [easy|ring]|now apply (is_derive_minus f g)].
      - intros t T. specialize (H t T). apply Rabs_le_between in H. lra. }
    assert (V : (fun t => e * t + (f t - g t)) x <= (fun t => e * t + (f t - g t)) y).
    { apply (grows (fun t => e * t + (f t - g t)) (fun t => e + (f' t - g' t)) a b); try easy.
      - intros t T. specialize (DF t T). specialize (DG t T).
        apply (is_derive_plus (fun t => e * t) (fun t => f t - g t)); [auto_derive; [easy|ring]|now apply (is_derive_minus f g)].
      - intros t T. specialize (H t T). apply Rabs_le_between in H. lra. }
    cbn beta in U, V. apply Rabs_le_between. lra. }
  intros x y X Y. destruct (Rle_dec x y) as [L|L].
  - rewrite (Rabs_pos_eq (y - x)) by lra. apply W; lra.
  - rewrite Rabs_minus_sym. rewrite (Rabs_minus_sym y x), (Rabs_pos_eq (x - y)) by lra. apply W; lra.
Qed.

Lemma exp_low : forall n y, 0 <= y -> psum n y <= exp y.
Proof.
  induction n as [|n IH]; intros y Y; [cbn; left; apply exp_pos|].
  assert (G : (fun t => exp t - psum (S n) t) 0 <= (fun t => exp t - psum (S n) t) y).
  { apply (grows (fun t => exp t - psum (S n) t) (fun t => exp t - psum n t) 0 y); try lra.
    - intros t _. apply (is_derive_minus exp (psum (S n))); [apply is_derive_exp|apply is_derive_psum].
    - intros t (T & _). specialize (IH t T). lra. }
  cbn beta in G. rewrite exp_0, psum_0 in G. lra.
Qed.
Lemma exp_high : forall n y, 0 <= y <= 4 -> exp y <= psum n y + 81 * (y ^ n / IZR (zfact n)).
Proof.
  induction n as [|n IH]; intros y Y.
  - cbn. replace (0 + 81 * (1 / 1)) with (3 * 3 * 3 * 3) by field. replace y with (y / 4 + y / 4 + y / 4 + y / 4) by field.
    rewrite !exp_plus. assert (E : 0 < exp (y / 4) <= 3).
    { split; [apply exp_pos|]. eapply Rle_trans; [|exact exp_le_3]. destruct (Req_dec (y / 4) 1) as [->|N]; [lra|]. left. apply exp_increasing. lra. }
    assert (E2 : 0 < exp (y / 4) * exp (y / 4) <= 9) by nra. assert (E3 : 0 < exp (y / 4) * exp (y / 4) * exp (y / 4) <= 27) by nra. nra.
  - assert (G : (fun t => psum (S n) t + 81 * (t ^ S n / IZR (zfact (S n))) - exp t) 0 <= (fun t => psum (S n) t + 81 * (t ^ S n / IZR (zfact (S n))) - exp t) y).
    { apply (grows (fun t => psum (S n) t + 81 * (t ^ S n / IZR (zfact (S n))) - exp t) (fun t => psum n t + 81 * (t ^ n / IZR (zfact n)) - exp t) 0 4); try lra.
      - intros t _. apply (is_derive_minus (fun t => psum (S n) t + 81 * (t ^ S n / IZR (zfact (S n)))) exp); [|apply is_derive_exp].
        apply (is_derive_plus (psum (S n)) (fun t => 81 * (t ^ S n / IZR (zfact (S n))))); [apply is_derive_psum|].
        apply is_derive_scal. apply is_derive_term.
      - intros t T. specialize (IH t T). lra. }
    cbn beta in G. rewrite exp_0, psum_0, pow_ne_zero in G by lia. unfold Rdiv at 1 in G. rewrite Rmult_0_l in G. lra.
Qed.
