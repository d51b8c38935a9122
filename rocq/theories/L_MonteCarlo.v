(** Lemmas on the Monte Carlo pricers. *)
From Coq Require Import String List ZArith Bool Lia Reals Lra.
From Flocq Require Import Core.
From Verif Require Import M_Num M_Outcome M_Dict M_Stock M_Market M_Payoff M_Option M_Random M_Model
  M_Regression M_MonteCarlo M_Builder S_Random S_Model S_MonteCarlo L_Model.
Import ListNotations.

(** ** A simulation never changes the dimension or the kind of its generator *)
Section Keeps.
Context {T : Type} {num : Num T}.
Variable env : Env T.

Definition keeps {A} (m : SM T A) : Prop := forall g,
  gDim (snd (m g)) = gDim g /\ gQuasi (snd (m g)) = gQuasi g.

Lemma keeps_ret : forall {A} (a : A), keeps (sret a).
Proof. now intros A a g. Qed.
Lemma keeps_lift : forall {A} (a : outcome A), keeps (slift a).
Proof. now intros A a g. Qed.
Lemma keeps_bind : forall {A B} (m : SM T A) (f : A -> SM T B),
  keeps m -> (forall a, keeps (f a)) -> keeps (sbind m f).
Proof.
  intros A B m f M F g. unfold sbind. specialize (M g). destruct (m g) as [[a| |] g1]; cbn [snd] in *.
  - destruct (F a g1) as [F1 F2]. destruct M as [M1 M2]. split; congruence.
  - exact M.
  - exact M.
Qed.
Lemma keeps_uniform : forall k, keeps (quasi_uniform env k).
Proof.
  intros k g. unfold quasi_uniform. cbv zeta.
  match goal with |- context[gPoint ?x] => set (g1 := x) end.
  assert (E : gDim g1 = gDim g /\ gQuasi g1 = gQuasi g)
    by (unfold g1; destruct (gDim g <=? gStep g mod UINT_MOD)%Z; easy).
  clearbody g1. destruct (vget (gPoint g1) (gStep g1)); try exact E.
  destruct (gStep g1 =? INT_MAX)%Z; exact E.
Qed.
Lemma keeps_draw : forall d, keeps (draw env d).
Proof.
  intros d g. unfold draw. destruct (gQuasi g) eqn:Q; [|now cbn].
  rewrite <- Q. apply (keeps_bind _ _ (keeps_uniform q)). intros. apply keeps_lift.
Qed.
Lemma keeps_poisson : forall l, keeps (draw_poisson env l).
Proof.
  intros l g. unfold draw_poisson. destruct (gQuasi g) eqn:Q; [|now cbn].
  rewrite <- Q. apply (keeps_bind _ _ (keeps_draw (DPoisson l))). intros. apply keeps_lift.
Qed.
Lemma keeps_new : forall d : Distr T, keeps (new_dist d).
Proof. intros d g. unfold new_dist. destruct (Distr_ctor d); now cbn. Qed.
Lemma keeps_siter : forall {A} (body : Z -> A -> SM T A), (forall i a, keeps (body i a)) ->
  forall n i s, keeps (siter n i body s).
Proof.
  intros A body B. induction n as [|n IH]; intros i s; cbn [siter]; [apply keeps_ret|].
  apply keeps_bind; [apply B|]. intros. apply IH.
Qed.
Lemma keeps_sfor : forall {A} (body : Z -> A -> SM T A) n s, (forall i a, keeps (body i a)) ->
  keeps (sfor_int n body s).
Proof.
  intros A body n s B. unfold sfor_int. destruct (Z.leb_spec n INT_MAX).
  - now apply keeps_siter.
  - apply keeps_bind; [now apply keeps_siter|]. intros. apply keeps_lift.
Qed.

Ltac ktac := repeat (first
  [ apply keeps_bind; [|intros] | apply keeps_draw | apply keeps_poisson | apply keeps_new
  | apply keeps_ret | apply keeps_lift
  | apply keeps_siter; intros | apply keeps_sfor; intros
  | match goal with |- keeps (let '(_, _) := ?p in _) => destruct p as [? ?] end
  | match goal with |- keeps (if ?b then _ else _) => destruct b end
  | match goal with |- keeps (match ?p with _ => _ end) => destruct p as [? ?] end
  | progress unfold kou_jump ]).

Lemma keeps_kind : forall k (d : StockData T) r t, keeps (kind_prices env k d r t).
Proof.
  intros k d r t. intros g. destruct k; cbn [kind_prices];
    unfold gbm_prices, heston_prices, bates_prices, kou_prices, merton_prices, vg_prices; cbv zeta;
    match goal with |- _ (snd (?m g)) = _ /\ _ => enough (K : keeps m) by apply K end; ktac.
Qed.
Lemma keeps_simulate : forall m (w : Market T) t, keeps (simulatePrices env m w t).
Proof. intros. unfold simulatePrices. apply keeps_bind; [apply keeps_lift|]. intros. apply keeps_kind. Qed.
Lemma keeps_maturity : forall m (w : Market T) t, keeps (simulatePriceAtMaturity env m w t).
Proof. intros. apply keeps_bind; [apply keeps_simulate|]. intros. apply keeps_lift. Qed.
Lemma keeps_backward : forall m (w : Market T) a b c, keeps (simulatePriceBackward env m w a b c).
Proof.
  intros. unfold simulatePriceBackward. destruct (mdKind m); try apply keeps_lift.
  apply keeps_bind; [apply keeps_lift|]. intros d. unfold gbm_backward. cbv zeta. ktac.
Qed.

Lemma keeps_runs : forall {A} (sim : SM T A), keeps sim -> forall n, keeps (runs sim n).
Proof.
  intros A sim K. induction n as [|n IH]; intros g; cbn [runs]; [easy|].
  specialize (K g). destruct (sim g) as [[x| |] g1]; cbn [snd] in *; try exact K.
  specialize (IH g1). destruct (runs sim n g1) as [[l| |] g2]; cbn [snd] in *;
    destruct K, IH; split; congruence.
Qed.

Lemma runs_length : forall {A} (sim : SM T A) n g l g', runs sim n g = (Ok l, g') -> length l = n.
Proof.
  intros A sim. induction n as [|n IH]; intros g l g' E; cbn [runs] in E; [now injection E as <- <-|].
  destruct (sim g) as [[x| |] g1]; try discriminate.
  destruct (runs sim n g1) as [[l1| |] g2] eqn:E1; try discriminate.
  injection E as <- <-. cbn. f_equal. eapply IH; eauto.
Qed.

(** Every result of the runs comes from some generator of the same dimension. *)
Lemma runs_in : forall {A} (sim : SM T A), keeps sim -> forall n g l g', runs sim n g = (Ok l, g') ->
  forall x, In x l -> exists h h', gDim h = gDim g /\ gQuasi h = gQuasi g /\ sim h = (Ok x, h').
Proof.
  intros A sim K. induction n as [|n IH]; intros g l g' E x I; cbn [runs] in E; [injection E as <- <-; easy|].
  pose proof (K g) as [K1 K2]. destruct (sim g) as [[y| |] g1] eqn:S1; try discriminate.
  destruct (runs sim n g1) as [[l1| |] g2] eqn:E1; try discriminate.
  injection E as <- <-. destruct I as [->|I].
  - now exists g, g1.
  - destruct (IH _ _ _ E1 x I) as (h & h' & H1 & H2 & H3). cbn [snd] in *. exists h, h'. repeat split; congruence.
Qed.
End Keeps.

(** ** The summation loop *)
Section SumLoop.
Local Open Scope R_scope.

Lemma mc_siter : forall {A} (sim : SM R A) (v : A -> R) (body : Z -> R -> SM R R) D, keeps sim ->
  (forall i s g, gDim g = D -> body i s g =
     match sim g with (Ok p, g1) => (Ok (s + v p), g1) | (Throw e, g1) => (Throw e, g1) | (UB, g1) => (UB, g1) end) ->
  forall n i s g, gDim g = D ->
  siter n i body s g =
    match runs sim n g with
    | (Ok l, g1) => (Ok (s + Rsum (map v l)), g1)
    | (Throw e, g1) => (Throw e, g1)
    | (UB, g1) => (UB, g1)
    end.
Proof.
  intros A sim v body D K B. induction n as [|n IH]; intros i s g G; cbn [siter runs].
  - cbn. unfold sret. now rewrite Rplus_0_r.
  - unfold sbind. rewrite B by easy. pose proof (K g) as [K1 _]. destruct (sim g) as [[p| |] g1]; try easy.
    cbn [snd] in K1. rewrite IH by congruence. destruct (runs sim n g1) as [[l| |] g2]; try easy.
    cbn. f_equal. f_equal. fold (Rsum (map v l)). ring.
Qed.

Lemma mc_price : forall {A} (sim : SM R A) (v : A -> R) (body : Z -> R -> SM R R) N df g, keeps sim ->
  (forall i s h, gDim h = gDim g -> body i s h =
     match sim h with (Ok p, g1) => (Ok (s + v p), g1) | (Throw e, g1) => (Throw e, g1) | (UB, g1) => (UB, g1) end) ->
  (1 <= N)%Z ->
  sbind (siter (Z.to_nat N) 0 body n0) (fun sum => sret (nmul (ndiv sum (nofZ N)) df)) g =
    match runs sim (Z.to_nat N) g with
    | (Ok l, g1) => (Ok (df * Rmean (map v l)), g1)
    | (Throw e, g1) => (Throw e, g1)
    | (UB, g1) => (UB, g1)
    end.
Proof.
  intros A sim v body N df g K B L. unfold sbind.
  rewrite (mc_siter sim v body (gDim g) K B (Z.to_nat N) 0 n0 g eq_refl).
  destruct (runs sim (Z.to_nat N) g) as [[l| |] g1] eqn:E; try easy.
  unfold sret. f_equal. f_equal. cbn. unfold Rmean. rewrite map_length, (runs_length _ _ _ _ _ E).
  rewrite INR_IZR_INZ, Z2Nat.id by lia. unfold n0; cbn. field. apply not_0_IZR. lia.
Qed.
End SumLoop.

(** ** Loops over the prices of a path *)
Section PathLoops.
Context {T : Type} {num : Num T}.

Lemma vget_nth : forall {A} (l : list A) i, (0 <= i)%Z ->
  vget l i = match nth_error l (Z.to_nat i) with Some x => Ok x | None => UB end.
Proof. intros A l i H. unfold vget. destruct (Z.ltb_spec i 0); [lia|easy]. Qed.

Lemma vget_app : forall {A} (pre : list A) x suf, vget (pre ++ x :: suf) (Z.of_nat (length pre)) = Ok x.
Proof.
  intros. rewrite vget_nth by lia. rewrite Nat2Z.id, nth_error_app2, Nat.sub_diag by lia. reflexivity.
Qed.

Lemma iter_prices : forall {A} (P : list T) (body : T -> A -> outcome A) suf pre a, P = pre ++ suf ->
  iter_from (length suf) (Z.of_nat (length pre)) (fun t a => bind (vget P t) (fun x => body x a)) a =
  fold_left (fun a x => bind a (body x)) suf (Ok a).
Proof.
  intros A P body. induction suf as [|x suf IH]; intros pre a E; cbn [length iter_from fold_left]; [easy|].
  rewrite E at 1. rewrite vget_app. cbn [bind].
  destruct (body x a) as [a1| |] eqn:B; cbn [bind].
  - replace (Z.of_nat (length pre) + 1)%Z with (Z.of_nat (length (pre ++ [x]))) by (rewrite app_length; cbn; lia).
    apply IH. now rewrite <- app_assoc.
  - clear. induction suf; cbn; easy.
  - clear. induction suf; cbn; easy.
Qed.

Lemma iter_from_ext : forall {S} (b1 b2 : Z -> S -> outcome S), (forall i s, b1 i s = b2 i s) ->
  forall n i s, iter_from n i b1 s = iter_from n i b2 s.
Proof.
  intros S b1 b2 H. induction n as [|n IH]; intros i s; cbn [iter_from]; [easy|].
  rewrite H. destruct (b2 i s); cbn [bind]; easy || apply IH.
Qed.

Lemma for_prices_fold : forall {A} (f : T -> A -> A) (P : list T) a, (Z.of_nat (length P) <= INT_MAX)%Z ->
  for_prices P (Z.of_nat (length P)) (fun x a => (f x a, false)) a = Ok (fold_left (fun a x => f x a) P a).
Proof.
  intros A f P a L. unfold for_prices, for_int. destruct (Z.leb_spec (Z.of_nat (length P)) INT_MAX); [|lia].
  rewrite Nat2Z.id.
  assert (E : forall suf pre a, P = pre ++ suf ->
    iter_from (length suf) (Z.of_nat (length pre)) (fun t '(a, stop) =>
      if stop : bool then Ok (a, true) else bind (vget P t) (fun x => Ok (f x a, false))) (a, false) =
    Ok (fold_left (fun a x => f x a) suf a, false)).
  { induction suf as [|x suf IH]; intros pre b E; cbn [length iter_from fold_left]; [easy|].
    rewrite E at 1. rewrite vget_app. cbn [bind].
    replace (Z.of_nat (length pre) + 1)%Z with (Z.of_nat (length (pre ++ [x]))) by (rewrite app_length; cbn; lia).
    apply IH. now rewrite <- app_assoc. }
  specialize (E P [] a eq_refl). change (Z.of_nat (length (@nil T))) with 0%Z in E. rewrite E. reflexivity.
Qed.

Lemma for_prices_ext : forall {A} (P : list T) n (b1 b2 : T -> A -> A * bool) a, (n <= INT_MAX)%Z ->
  (forall x a, b1 x a = b2 x a) -> for_prices P n b1 a = for_prices P n b2 a.
Proof.
  intros A P n b1 b2 a L H. unfold for_prices, for_int. destruct (Z.leb_spec n INT_MAX); [|lia].
  rewrite (iter_from_ext _ (fun t '(a, stop) =>
    if stop : bool then Ok (a, true) else bind (vget P t) (fun x => Ok (b2 x a)))); [easy|].
  intros i [s []]; [easy|]. destruct (vget P i); cbn; [now rewrite H|easy|easy].
Qed.

Lemma last_price_ok : forall (P : list T) d, P <> [] -> (Z.of_nat (length P) <= INT_MAX)%Z ->
  last_price P (Z.of_nat (length P)) = Ok (last P d).
Proof.
  intros P d N L. destruct (exists_last N) as (pre & x & ->). unfold last_price.
  rewrite app_length in *; cbn [length] in *.
  replace ((Z.of_nat (length pre + 1) - 1) mod UINT_MOD)%Z with (Z.of_nat (length pre)).
  - rewrite vget_app, last_last. reflexivity.
  - rewrite Z.mod_small; unfold UINT_MOD, INT_MAX in *; lia.
Qed.

Lemma vback_last : forall (P : list T) d, P <> [] -> vback P = Ok (last P d).
Proof.
  intros P d N. destruct (exists_last N) as (pre & x & ->). unfold vback. rewrite rev_app_distr. cbn.
  now rewrite last_last.
Qed.
End PathLoops.

Section Folds.
Local Open Scope R_scope.

Lemma fold_sum : forall (f : R -> R) l a, fold_left (fun a x => a + f x) l a = a + Rsum (map f l).
Proof.
  intros f. induction l as [|x l IH]; intros a; cbn; [lra|]. rewrite IH. fold (Rsum (map f l)). lra.
Qed.

Lemma nmin_R : forall a b : R, nmin a b = Rmin a b.
Proof.
  intros. unfold nmin; cbn. destruct (Rlt_bool_spec b a); [rewrite Rmin_right|rewrite Rmin_left]; lra.
Qed.

Lemma fold_Rmin_comm : forall l a b, fold_right Rmin (Rmin a b) l = Rmin a (fold_right Rmin b l).
Proof.
  induction l as [|x l IH]; intros a b; cbn; [easy|]. rewrite IH.
  rewrite !Rmin_assoc. f_equal. apply Rmin_comm.
Qed.
Lemma fold_Rmax_comm : forall l a b, fold_right Rmax (Rmax a b) l = Rmax a (fold_right Rmax b l).
Proof.
  induction l as [|x l IH]; intros a b; cbn; [easy|]. rewrite IH.
  rewrite !Rmax_assoc. f_equal. apply Rmax_comm.
Qed.

Definition ext_step (x : R) (e : option R * option R) : option R * option R :=
  let '(S_min, S_max) := e in (min_from S_min x, max_from S_max x).

Lemma ext_fold : forall l a b,
  fold_left (fun e x => ext_step x e) l (Some a, Some b) = (Some (fold_right Rmin a l), Some (fold_right Rmax b l)).
Proof.
  induction l as [|x l IH]; intros a b; cbn [fold_left fold_right]; [easy|].
  cbn [ext_step min_from max_from]. rewrite nmin_R, nmax_R, IH.
  rewrite (Rmin_comm a x), (Rmax_comm b x), fold_Rmin_comm, fold_Rmax_comm. reflexivity.
Qed.

Lemma ext_path : forall l, l <> [] ->
  fold_left (fun e x => ext_step x e) l (None, None) = (Some (lmin l), Some (lmax l)).
Proof.
  intros [|x l] N; [easy|]. cbn [fold_left ext_step min_from max_from]. cbn [neqb Rnum].
  rewrite Req_bool_true by easy. rewrite ext_fold. reflexivity.
Qed.

Lemma lmin_le : forall l x, In x l -> lmin l <= x.
Proof.
  intros [|a l] x I; [easy|]. unfold lmin. revert x I.
  induction l as [|y l IH]; intros x I; cbn [fold_right].
  - destruct I as [<-|[]]. lra.
  - destruct I as [<-|[<-|I]].
    + eapply Rle_trans; [apply Rmin_r|]. apply IH. now left.
    + apply Rmin_l.
    + eapply Rle_trans; [apply Rmin_r|]. apply IH. now right.
Qed.
Lemma lmax_ge : forall l x, In x l -> x <= lmax l.
Proof.
  intros [|a l] x I; [easy|]. unfold lmax. revert x I.
  induction l as [|y l IH]; intros x I; cbn [fold_right].
  - destruct I as [<-|[]]. lra.
  - destruct I as [<-|[<-|I]].
    + eapply Rle_trans; [|apply Rmax_r]. apply IH. now left.
    + apply Rmax_l.
    + eapply Rle_trans; [|apply Rmax_r]. apply IH. now right.
Qed.
Lemma lmin_in : forall l, l <> [] -> In (lmin l) l.
Proof.
  intros [|a l] N; [easy|]. unfold lmin. clear N. induction l as [|y l IH]; cbn [fold_right]; [now left|].
  unfold Rmin at 1. destruct (Rle_dec y _); [right; now left|]. destruct IH as [H|H]; [left; easy|right; now right].
Qed.
Lemma lmax_in : forall l, l <> [] -> In (lmax l) l.
Proof.
  intros [|a l] N; [easy|]. unfold lmax. clear N. induction l as [|y l IH]; cbn [fold_right]; [now left|].
  unfold Rmax at 1. destruct (Rle_dec y _); [destruct IH as [H|H]; [left; easy|right; now right]|right; now left].
Qed.
Lemma last_in : forall (l : list R) d, l <> [] -> In (last l d) l.
Proof.
  intros l d N. destruct (exists_last N) as (pre & x & ->). rewrite last_last. apply in_or_app. right. now left.
Qed.

Lemma Rsum_le : forall l l', Forall2 Rle l l' -> Rsum l <= Rsum l'.
Proof. induction 1; cbn; [lra|]. fold (Rsum l) (Rsum l'). lra. Qed.
Lemma Rsum_bounds : forall l a b, (forall x, In x l -> a <= x <= b) ->
  INR (length l) * a <= Rsum l <= INR (length l) * b.
Proof.
  induction l as [|x l IH]; intros a b H; [cbn; lra|].
  cbn [length Rsum fold_right]. fold (Rsum l). rewrite S_INR.
  specialize (IH a b (fun y I => H y (or_intror I))). specialize (H x (or_introl eq_refl)). lra.
Qed.
Lemma Rmean_bounds : forall l a b, l <> [] -> (forall x, In x l -> a <= x <= b) -> a <= Rmean l <= b.
Proof.
  intros l a b N H. pose proof (Rsum_bounds l a b H). unfold Rmean.
  assert (0 < INR (length l)) by (destruct l; [easy|apply lt_0_INR; cbn; lia]).
  split; apply Rmult_le_reg_r with (INR (length l)); try easy; unfold Rdiv; rewrite Rmult_assoc, Rinv_l; lra.
Qed.
Lemma Rmean_le : forall {A} (u v : A -> R) l, l <> [] -> (forall x, In x l -> u x <= v x) ->
  Rmean (map u l) <= Rmean (map v l).
Proof.
  intros A u v l N H. unfold Rmean. rewrite !map_length. unfold Rdiv. apply Rmult_le_compat_r.
  - left. apply Rinv_0_lt_compat. destruct l; [easy|apply lt_0_INR; cbn; lia].
  - apply Rsum_le. clear N. induction l; cbn; constructor; [apply H; now left|]. apply IHl. intros. apply H. now right.
Qed.
Lemma Rmean_plus : forall {A} (u v : A -> R) l,
  Rmean (map (fun x => u x + v x) l) = Rmean (map u l) + Rmean (map v l).
Proof.
  intros A u v l. unfold Rmean. rewrite !map_length.
  replace (Rsum (map (fun x => u x + v x) l)) with (Rsum (map u l) + Rsum (map v l)); [unfold Rdiv; ring|].
  induction l; cbn; [lra|]. fold (Rsum (map u l)) (Rsum (map v l)) (Rsum (map (fun x => u x + v x) l)). lra.
Qed.
Lemma Rmean_minus : forall {A} (u v : A -> R) l,
  Rmean (map (fun x => u x - v x) l) = Rmean (map u l) - Rmean (map v l).
Proof.
  intros A u v l. unfold Rmean. rewrite !map_length.
  replace (Rsum (map (fun x => u x - v x) l)) with (Rsum (map u l) - Rsum (map v l)); [unfold Rdiv; ring|].
  induction l; cbn; [lra|]. fold (Rsum (map u l)) (Rsum (map v l)) (Rsum (map (fun x => u x - v x) l)). lra.
Qed.
Lemma Rmean_const : forall {A} (c : R) (l : list A), l <> [] -> Rmean (map (fun _ => c) l) = c.
Proof.
  intros A c l N. destruct (Rmean_bounds (map (fun _ => c) l) c c) as [H1 H2].
  - destruct l; easy.
  - intros x I. apply in_map_iff in I. destruct I as (? & <- & _). lra.
  - lra.
Qed.
End Folds.

(** ** Payoffs *)
Section Pays.
Local Open Scope R_scope.

Lemma terminal_ok : forall p x, (forall ty, p <> PFloating ty) -> payoff1 p x = Ok (terminal p x).
Proof.
  intros [ty K|ty K|KL KU|ty] x N; cbn [payoff1 terminal].
  - f_equal. destruct ty; cbn; rewrite nmax_R; reflexivity.
  - f_equal. destruct ty; cbn; unfold n1, n0; cbn;
      match goal with |- context[Rlt_dec ?a ?b] => destruct (Rlt_dec a b) end;
      ((rewrite Rlt_bool_true by easy) || (rewrite Rlt_bool_false by lra)); reflexivity.
  - f_equal. unfold n0, n1; cbn. destruct (Rle_dec KL x), (Rle_dec x KU);
      repeat ((rewrite Rle_bool_true by easy) || (rewrite Rle_bool_false by lra)); reflexivity.
  - now destruct (N ty).
Qed.

Lemma terminal_nonneg : forall p x, 0 <= terminal p x.
Proof.
  intros [ty K|ty K|KL KU|ty] x; cbn [terminal].
  - destruct ty; apply Rmax_r.
  - destruct ty; match goal with |- context[Rlt_dec ?a ?b] => destruct (Rlt_dec a b) end; lra.
  - destruct (Rle_dec KL x), (Rle_dec x KU); lra.
  - lra.
Qed.

Lemma touches_bool : forall B d x, barrier_isActive B d x = if touches_dec (B, d) x then true else false.
Proof.
  intros B [] x; cbn.
  - destruct (Rle_dec B x); [apply Rle_bool_true|apply Rle_bool_false]; lra.
  - destruct (Rle_dec x B); [apply Rle_bool_true|apply Rle_bool_false]; lra.
Qed.

Lemma crossed_ok : forall k o b P, optBarrier o = Some b ->
  optKind o = match k with KIn => KnockIn | KOut => KnockOut end ->
  (Z.of_nat (length P) <= INT_MAX)%Z ->
  barrier_crossed k o P (Z.of_nat (length P)) = Ok (touched b P).
Proof.
  intros k o [B d] P Eb Ek L. unfold barrier_crossed, for_int.
  destruct (Z.leb_spec (Z.of_nat (length P)) INT_MAX); [|lia]. rewrite Nat2Z.id.
  assert (A : forall x, isActive o x = Ok (match k with KIn => if touches_dec (B, d) x then true else false
                                           | KOut => negb (if touches_dec (B, d) x then true else false) end)).
  { intros x. unfold isActive. rewrite Eb, Ek. unfold knockIn_isActive, knockOut_isActive.
    destruct k; rewrite <- touches_bool; reflexivity. }
  assert (E : forall suf pre c, P = pre ++ suf ->
    exists s, iter_from (length suf) (Z.of_nat (length pre)) (fun t '(hasCrossed, stop) =>
      if stop : bool then Ok (hasCrossed, true)
      else bind (vget P t) (fun x => bind (isActive o x) (fun a => Ok (checkHasCrossed k a hasCrossed)))) (c, false) =
    Ok (c || touched (B, d) suf, s)).
  { assert (Stop : forall n i, iter_from n i (fun t '(hasCrossed, stop) =>
      if stop : bool then Ok (hasCrossed, true)
      else bind (vget P t) (fun x => bind (isActive o x) (fun a => Ok (checkHasCrossed k a hasCrossed)))) (true, true) =
      Ok (true, true)).
    { induction n as [|n IH]; intros i; cbn [iter_from bind]; [easy|apply IH]. }
    induction suf as [|x suf IH]; intros pre c E; cbn [length iter_from]; [exists false; cbn; now rewrite orb_false_r|].
    assert (V : vget P (Z.of_nat (length pre)) = Ok x) by (rewrite E; apply vget_app). rewrite V. cbn [bind]. rewrite A. cbn [bind].
    replace (Z.of_nat (length pre) + 1)%Z with (Z.of_nat (length (pre ++ [x]))) by (rewrite app_length; cbn; lia).
    cbn [touched existsb].
    destruct k; cbn [checkHasCrossed].
    - destruct (touches_dec (B, d) x).
      + destruct (IH (pre ++ [x]) true) as [s Hs]; [now rewrite <- app_assoc|]. exists s. etransitivity; [exact Hs|]. cbn. now rewrite orb_true_r.
      + destruct (IH (pre ++ [x]) c) as [s Hs]; [now rewrite <- app_assoc|]. exists s. exact Hs.
    - destruct (touches_dec (B, d) x); cbn [negb].
      + exists true. etransitivity; [apply Stop|]. now rewrite orb_true_r.
      + destruct (IH (pre ++ [x]) c) as [s Hs]; [now rewrite <- app_assoc|]. exists s. exact Hs. }
  destruct (E P [] false eq_refl) as [s Es]. change (Z.of_nat (length (@nil R))) with 0%Z in Es. rewrite Es. reflexivity.
Qed.

Lemma touched_spec : forall b P, touched b P = true <-> exists x, In x P /\ touches b x.
Proof.
  intros b P. unfold touched. rewrite existsb_exists. split; intros (x & I & H); exists x; (split; [easy|]).
  - destruct (touches_dec b x); easy.
  - destruct (touches_dec b x); easy.
Qed.
End Pays.

(** ** Every pricer but the American one *)
Section Price.
Local Open Scope R_scope.
Variable env : Env R.

Definition class_run (c : PricerClass) (o : Option R) (w : Market R) (m : StockModel R) (wm : Market R)
    (N : Z) : SM R R :=
  match c with
  | CSinglePath => single_path_price env o w m wm N
  | CAsian k => asian_price env k o w m wm N
  | CBarrier k => barrier_price env k o w m wm N
  | CLookback k => lookback_price env k o w m wm N
  | CAmerican => slift UB
  end.

Lemma not_floating : forall o, wf_option o -> optKind o <> FloatingLookback ->
  forall x, option_payoff1 o x = Ok (terminal (optPayoff o) x).
Proof.
  intros o (_ & P & _) K x. unfold option_payoff1. apply terminal_ok. intros ty F.
  destruct (optKind o); try easy; rewrite F in P;
    repeat match goal with H : exists _, _ |- _ => destruct H | H : _ /\ _ |- _ => destruct H end; discriminate.
Qed.

Lemma path_nonempty : forall m w t h P h', (1 <= gDim h)%Z ->
  simulatePrices env m w t h = (Ok P, h') ->
  P <> [] /\ Z.of_nat (length P) = gDim h /\ (Z.of_nat (length P) <= INT_MAX)%Z.
Proof.
  intros m w t h P h' G E. apply simulate_length in E. destruct E as [E1 E2].
  repeat split; [|lia|lia]. intros ->. cbn in E1. lia.
Qed.

Lemma class_price : forall c o w m wm N g, accepts c (optKind o) = true -> wf_option o -> c <> CAmerican ->
  (1 <= N <= INT_MAX)%Z -> (1 <= gDim g)%Z ->
  class_run c o w m wm N g =
    match runs (simulatePrices env m wm (optT o)) (Z.to_nat N) g with
    | (Ok paths, g1) => (Ok (exp (- getR w * optT o) * Rmean (map (path_value o) paths)), g1)
    | (Throw e, g1) => (Throw e, g1)
    | (UB, g1) => (UB, g1)
    end.
Proof.
  intros c o w m wm N g A WF NA LN LD.
  assert (SF : forall (f : Z -> R -> SM R R) s, sfor_int N f s = siter (Z.to_nat N) 0 f s).
  { intros f s. unfold sfor_int. destruct (Z.leb_spec N INT_MAX); [easy|lia]. }
  destruct c as [|k|k|k|]; [| | | |easy]; cbn [class_run].
  - unfold single_path_price. cbv zeta. rewrite SF.
    apply mc_price; [apply keeps_simulate| |lia].
    intros i s h H. unfold simulatePriceAtMaturity, sbind, slift.
    destruct (simulatePrices env m wm (optT o) h) as [[P| |] h'] eqn:E; try easy.
    destruct (path_nonempty _ _ _ _ _ _ ltac:(rewrite H; exact LD) E) as (NE & _ & _).
    rewrite (vback_last P 0 NE). rewrite not_floating; [|easy|destruct (optKind o); easy].
    unfold sret, path_value. cbn. destruct (optKind o); easy.
  - unfold asian_price. cbv zeta. unfold sfor_ulong.
    apply mc_price; [apply keeps_simulate| |lia].
    intros i s h H. unfold sbind at 1.
    destruct (simulatePrices env m wm (optT o) h) as [[P| |] h'] eqn:E; try easy.
    destruct (path_nonempty _ _ _ _ _ _ ltac:(rewrite H; exact LD) E) as (NE & L1 & L2).
    unfold getSteps, getDim. rewrite <- H, <- L1.
    rewrite (for_prices_fold (fun x a => nadd a (computeSumPrices k x))) by easy.
    unfold sbind at 1, slift at 1. unfold sbind, slift.
    rewrite not_floating; [|easy|destruct (optKind o); destruct k; easy].
    unfold sret. f_equal. f_equal. cbn [nadd Rnum]. f_equal. unfold path_value.
    rewrite (fold_sum (computeSumPrices k)). unfold n0; cbn [nofZ Rnum]. rewrite Rplus_0_l.
    destruct k; destruct (optKind o); try discriminate A; f_equal;
      unfold computeAveragePrice, geometric_mean, Rmean; cbn [computeSumPrices nofZ ndiv nexp nlog Rnum];
      rewrite ?map_length, INR_IZR_INZ.
    + now rewrite map_id.
    + reflexivity.
  - unfold barrier_price. cbv zeta. rewrite SF.
    apply mc_price; [apply keeps_simulate| |lia].
    intros i s h H. unfold sbind at 1.
    destruct (simulatePrices env m wm (optT o) h) as [[P| |] h'] eqn:E; try easy.
    destruct (path_nonempty _ _ _ _ _ _ ltac:(rewrite H; exact LD) E) as (NE & L1 & L2).
    unfold getSteps, getDim. rewrite <- H, <- L1.
    assert (B : exists b, optBarrier o = Some b).
    { destruct WF as (_ & _ & B). destruct k; destruct (optKind o); easy. }
    destruct B as [b B].
    unfold sbind, slift. rewrite (crossed_ok k o b P B) by (easy || (destruct k; destruct (optKind o); easy)).
    rewrite (last_price_ok P 0 NE L2). unfold barrier_payoff, path_value.
    rewrite not_floating; [|easy|destruct k; destruct (optKind o); easy].
    destruct k; destruct (optKind o); try discriminate A; rewrite B; destruct (touched b P);
      unfold sret; cbn [nadd Rnum]; unfold n0; cbn; reflexivity.
  - unfold lookback_price. cbv zeta. rewrite SF.
    apply mc_price; [apply keeps_simulate| |lia].
    intros i s h H. unfold sbind at 1.
    destruct (simulatePrices env m wm (optT o) h) as [[P| |] h'] eqn:E; try easy.
    destruct (path_nonempty _ _ _ _ _ _ ltac:(rewrite H; exact LD) E) as (NE & L1 & L2).
    unfold getSteps, getDim. rewrite <- H, <- L1. unfold sbind, slift.
    assert (X : for_prices P (Z.of_nat (length P)) (fun x '(S_min, S_max) =>
        ((min_from S_min x, max_from S_max x), false)) (None, None) = Ok (Some (lmin P), Some (lmax P))).
    { rewrite <- (ext_path P NE). rewrite <- (for_prices_fold ext_step) by easy.
      apply for_prices_ext; [easy|]. now intros x [a b]. }
    rewrite X. rewrite (last_price_ok P 0 NE L2). cbn [fst snd or_inf].
    unfold lookback_payoff, path_value.
    destruct WF as (_ & WP & _).
    pose proof (lmin_le P _ (last_in P 0 NE)). pose proof (lmax_ge P _ (last_in P 0 NE)).
    destruct k; destruct (optKind o); try discriminate A.
    + destruct WP as (ty & CP & EP). rewrite EP. cbn [getPayoffType].
      unfold option_payoff2. rewrite EP. cbn [payoff2].
      destruct CP as [-> | ->]; cbn [PayoffType_eqb]; unfold sret; cbn [nadd nsub Rnum];
        rewrite nmax_R, Rmax_left by (unfold n0; cbn; lra); reflexivity.
    + destruct WP as (ty & K & CP & _ & EP). rewrite EP. cbn [getPayoffType].
      unfold option_payoff1. rewrite EP. rewrite !terminal_ok by easy.
      destruct CP as [-> | ->]; reflexivity.
Qed.

Lemma calc_class : forall la P W w wm g N, lives_in P W w wm g -> pcClass P <> CAmerican ->
  calculatePrice env la P W N =
    let (r, g') := class_run (pcClass P) (pcOption P) w (moModel (pcModel P)) wm N g in
    (r, mkWorld (wMarkets W)
              (firstn (moGen (pcModel P)) (wGens W) ++ g' :: skipn (S (moGen (pcModel P))) (wGens W))).
Proof.
  intros la P W w wm g N (L1 & L2 & L3) NA. unfold calculatePrice. rewrite L1, L2, L3.
  destruct (pcClass P); try easy.
Qed.

Lemma moved_world : forall P W w wm g g', lives_in P W w wm g ->
  moved P W g' (mkWorld (wMarkets W)
              (firstn (moGen (pcModel P)) (wGens W) ++ g' :: skipn (S (moGen (pcModel P))) (wGens W))).
Proof.
  intros P W w wm g g' (_ & _ & L). set (k := moGen (pcModel P)) in *.
  assert (k < length (wGens W))%nat by (apply nth_error_Some; congruence).
  unfold moved; cbn [wMarkets wGens]. fold k. split; [easy|]. split.
  - rewrite app_length. cbn [length]. rewrite firstn_length, skipn_length. lia.
  - intros i. destruct (Nat.eqb_spec i k) as [->|D].
    + rewrite nth_error_app2; rewrite firstn_length, Nat.min_l by lia; [|lia]. now rewrite Nat.sub_diag.
    + destruct (Nat.lt_ge_cases i k) as [Hi|Hi].
      * rewrite nth_error_app1 by (rewrite firstn_length; lia).
        rewrite <- (firstn_skipn k (wGens W)) at 2. rewrite nth_error_app1; [easy|]. rewrite firstn_length; lia.
      * rewrite nth_error_app2; rewrite firstn_length, Nat.min_l by lia; [|lia].
        destruct (i - k)%nat as [|j] eqn:Ej; [lia|]. cbn [nth_error].
        rewrite <- (firstn_skipn (S k) (wGens W)) at 2.
        rewrite nth_error_app2; rewrite firstn_length, Nat.min_l by lia; [|lia]. f_equal. lia.
Qed.

Lemma path_value_nonneg : forall o P, P <> [] -> 0 <= path_value o P.
Proof.
  intros o P NE. unfold path_value. pose proof (terminal_nonneg (optPayoff o)) as H.
  pose proof (lmin_le P _ (last_in P 0 NE)). pose proof (lmax_ge P _ (last_in P 0 NE)).
  destruct (optKind o); auto.
  - destruct (getPayoffType (optPayoff o)); auto.
  - destruct (getPayoffType (optPayoff o)); lra.
  - destruct (optBarrier o) as [b|]; [destruct (touched b P)|]; auto; lra.
  - destruct (optBarrier o) as [b|]; [destruct (touched b P)|]; auto; lra.
Qed.
End Price.

Lemma asian_any_N : forall env k o w m wm N g,
  accepts (CAsian k) (optKind o) = true -> wf_option o -> (1 <= N)%Z -> (1 <= getDim g)%Z ->
  asian_price env k o w m wm N g =
    match runs (simulatePrices env m wm (optT o)) (Z.to_nat N) g with
    | (Ok paths, g1) => (Ok (exp (- getR w * optT o) * Rmean (map (path_value o) paths)), g1)
    | (Throw e, g1) => (Throw e, g1)
    | (UB, g1) => (UB, g1)
    end%R.
Proof.
  intros env k o w m wm N g A WF LN LD.
  unfold asian_price. cbv zeta. unfold sfor_ulong.
  apply mc_price; [apply keeps_simulate| |lia].
  intros i s h H. unfold sbind at 1.
  destruct (simulatePrices env m wm (optT o) h) as [[P| |] h'] eqn:E; try easy.
  destruct (path_nonempty _ _ _ _ _ _ _ ltac:(rewrite H; exact LD) E) as (NE & L1 & L2).
  unfold getSteps, getDim. rewrite <- H, <- L1.
  rewrite (for_prices_fold (fun x a => nadd a (computeSumPrices k x))) by easy.
  unfold sbind at 1, slift at 1. unfold sbind, slift.
  rewrite not_floating; [|easy|destruct (optKind o); destruct k; easy].
  unfold sret. f_equal. f_equal. cbn [nadd Rnum]. f_equal. unfold path_value.
  rewrite (fold_sum (computeSumPrices k)). unfold n0; cbn [nofZ Rnum]. rewrite Rplus_0_l.
  destruct k; destruct (optKind o); try discriminate A; f_equal;
    unfold computeAveragePrice, geometric_mean, Rmean; cbn [computeSumPrices nofZ ndiv nexp nlog Rnum];
    rewrite ?map_length, INR_IZR_INZ.
  - now rewrite map_id.
  - reflexivity.
Qed.
