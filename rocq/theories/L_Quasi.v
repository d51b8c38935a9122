(** Runs on a quasi-random generator: which coordinates they read and when they fail. *)
From Coq Require Import String List ZArith Bool Lia.
From Verif Require Import M_Num M_Outcome M_Dict M_Stock M_Market M_Payoff M_Option M_Random M_Model
  M_Regression M_MonteCarlo M_Builder S_Random S_MonteCarlo S_McPaths L_Model L_Random L_MonteCarlo L_McPaths.
Import ListNotations.

Section Quasi.
Context {T : Type} {num : Num T}.
Variable env : Env T.
Variables (k : QKind) (seed dim : Z).
Hypothesis DIM : (1 <= dim <= INT_MAX)%Z.
Hypothesis ONE : nleb (n1 : T) n0 = false.

(** Coordinate number [i], scaled, is one the inversion accepts. *)
Definition fits (i : nat) : Prop := exists x, snd_inv_cdf (ndiv (coordinate env k seed dim i) (e_max env k)) = Ok x.

Lemma fits_dec : forall i, fits i \/ snd_inv_cdf (ndiv (coordinate env k seed dim i) (e_max env k)) = Throw InvalidArgument.
Proof.
  intros i. unfold fits, snd_inv_cdf. destruct (_ || _); [now right|left]. cbv zeta. destruct (nltb _ _); eauto.
Qed.

(** From coordinate [n] on, [m] reads [len] coordinates and returns a value in [Q], or stops
    at the first one that does not fit. *)
Definition walks {A} (len : nat) (Q : A -> Prop) (m : SM T A) : Prop := forall n g, at_coord env k seed dim n g ->
  (exists a g', m g = (Ok a, g') /\ Q a /\ at_coord env k seed dim (n + len) g' /\ (forall i, n <= i < n + len -> fits i)) \/
  (exists g' i, m g = (Throw InvalidArgument, g') /\ n <= i < n + len /\ ~ fits i).

Lemma walks_ret : forall A (a : A) (Q : A -> Prop), Q a -> walks 0 Q (sret a).
Proof. intros A a Q H n g G. left. exists a, g. rewrite Nat.add_0_r. split; [reflexivity|]. split; [exact H|]. split; [exact G|]. intros; lia. Qed.
Lemma walks_lift : forall A (x : outcome A) (Q : A -> Prop), (exists a, x = Ok a /\ Q a) -> walks 0 Q (slift x).
Proof. intros A x Q (a & -> & H) n g G. left. exists a, g. rewrite Nat.add_0_r. split; [reflexivity|]. split; [exact H|]. split; [exact G|]. intros; lia. Qed.

Lemma walks_bind : forall A B la lb (Q : A -> Prop) (Q' : B -> Prop) (m : SM T A) (f : A -> SM T B),
  walks la Q m -> (forall a, Q a -> walks lb Q' (f a)) -> walks (la + lb) Q' (sbind m f).
Proof.
  intros A B la lb Q Q' m f M F n g G. unfold sbind.
  destruct (M n g G) as [(a & g1 & E & HQ & G1 & A1)|(g1 & i & E & I & NF)]; rewrite E.
  - destruct (F a HQ _ g1 G1) as [(b & g2 & E2 & HQ' & G2 & A2)|(g2 & i & E2 & I & NF)].
    + left. exists b, g2. rewrite Nat.add_assoc. split; [exact E2|]. split; [exact HQ'|]. split; [exact G2|]. intros i I. destruct (Nat.lt_ge_cases i (n + la)); [apply A1|apply A2]; lia.
    + right. exists g2, i. repeat split; auto; lia.
  - right. exists g1, i. repeat split; auto; lia.
Qed.

Lemma walks_draw : walks 1 (fun _ => True) (draw env DStdNormal).
Proof.
  intros n g G.
  destruct (draw_at env k seed dim n g DStdNormal ltac:(unfold INT_MAX, UINT_MOD in *; lia) ltac:(left; lia) G) as (g' & E & G').
  cbn [inv_cdf] in E. destruct (fits_dec n) as [[x X]|X].
  - left. exists x, g'. rewrite E, X. replace (n + 1) with (S n) by lia. split; [reflexivity|]. split; [exact I|]. split; [exact G'|].
    intros i J. replace i with n by lia. now exists x.
  - right. exists g', n. rewrite E, X. repeat split; auto; [lia|]. intros [x Y]. congruence.
Qed.

Lemma walks_new : walks 0 (fun d => d = DStdNormal) (new_dist DStdNormal).
Proof.
  intros n g G. left. unfold new_dist. cbn [Distr_ctor]. rewrite ONE. do 2 eexists. split; [reflexivity|].
  rewrite Nat.add_0_r. split; [reflexivity|]. split; [|intros; lia].
  destruct G as (Q & D & S & X). repeat split; auto.
Qed.

Lemma walks_iter : forall S (Q : S -> Prop) l body, (forall i s, Q s -> walks l Q (body i s)) ->
  forall c i s, Q s -> walks (c * l) Q (siter (T := T) c i body s).
Proof.
  intros S Q l body B. induction c as [|c IH]; intros i s H; cbn [siter Nat.mul].
  - now apply walks_ret.
  - eapply walks_bind; [now apply B|]. intros a Ha. now apply IH.
Qed.

(** Normal draws the model makes per step of a path. *)
Definition draws_per_step (m : ModelKind T) : option nat :=
  match m with MGBM => Some 1 | MHeston _ _ _ _ _ _ => Some 2 | _ => None end.

Lemma walks_sfor : forall S (Q : S -> Prop) l body, (forall i s, Q s -> walks l Q (body i s)) ->
  forall s, Q s -> walks (Z.to_nat dim * l) Q (sfor_int (T := T) dim body s).
Proof.
  intros S Q l body B s H. unfold sfor_int. destruct (Z.leb_spec dim INT_MAX); [|lia]. now apply walks_iter.
Qed.

Lemma walks_simulate : forall m w d t q, draws_per_step (mdKind m) = Some q -> deref (mdStock m) w = Ok d ->
  walks (q * Z.to_nat dim) (fun _ => True) (simulatePrices env m w t).
Proof.
  intros m w d t q DQ D. unfold simulatePrices.
  change (q * Z.to_nat dim) with (0 + q * Z.to_nat dim).
  eapply walks_bind with (Q := fun x => x = d); [apply walks_lift; eauto|]. intros ? ->.
  destruct (mdKind m) as [|kp th sv rh v0 dc| | | |]; try discriminate; injection DQ as <-; cbn [kind_prices].
  - intros n g G. unfold gbm_prices. cbv zeta. assert (GD : gDim g = dim) by apply G. unfold getDim. rewrite GD.
    match goal with |- (exists a g', ?M g = _ /\ _) \/ _ => enough (H : walks (1 * Z.to_nat dim) (fun _ => True) M) by exact (H n g G) end. clear n g G GD.
    change (1 * Z.to_nat dim) with (0 + 1 * Z.to_nat dim). eapply walks_bind; [apply walks_new|]. intros ? ->.
    replace (1 * Z.to_nat dim) with (Z.to_nat dim * 1 + 0) by lia.
    eapply walks_bind with (Q := fun _ => True); [|intros; now apply walks_ret].
    apply walks_sfor; [|exact I]. intros i [s ps] _.
    change 1 with (1 + 0) at 1. eapply walks_bind; [apply walks_draw|]. intros z _. now apply walks_ret.
  - intros n g G. unfold heston_prices. cbv zeta. assert (GD : gDim g = dim) by apply G. unfold getDim. rewrite GD.
    match goal with |- (exists a g', ?M g = _ /\ _) \/ _ => enough (H : walks (2 * Z.to_nat dim) (fun _ => True) M) by exact (H n g G) end. clear n g G GD.
    change (2 * Z.to_nat dim) with (0 + 2 * Z.to_nat dim). eapply walks_bind; [apply walks_new|]. intros ? ->.
    replace (2 * Z.to_nat dim) with (Z.to_nat dim * 2 + 0) by lia.
    eapply walks_bind with (Q := fun _ => True); [|intros; now apply walks_ret].
    apply walks_sfor; [|exact I]. intros i [[s v] ps] _.
    change 2 with (1 + (1 + 0)) at 1. eapply walks_bind; [apply walks_draw|]. intros z1 _.
    eapply walks_bind; [apply walks_draw|]. intros z2 _. now apply walks_ret.
Qed.

Lemma walks_adds : forall A len (sim : SM T A) f body, walks len (fun _ => True) sim -> adds dim sim f body ->
  (forall p, exists x, f p = Ok x) -> forall i s, walks len (fun _ => True) (body i s).
Proof.
  intros A len sim f body M B F i s n g G. assert (D : gDim g = dim) by apply G. rewrite (B i s g D).
  destruct (M n g G) as [(a & g1 & E & HQ & G1 & A1)|(g1 & j & E & J & NF)]; rewrite E.
  - destruct (F a) as [x ->]. left. do 2 eexists. split; [reflexivity|]. split; [exact I|]. split; [exact G1|exact A1].
  - right. exists g1, j. auto.
Qed.

Variable la : LinAlg T.

(** The price of a pricer without early exercise. *)
Lemma walks_price : forall P W w wm g N q d n, lives_in P W w wm g -> pcClass P <> CAmerican ->
  accepts (pcClass P) (optKind (pcOption P)) = true ->
  (forall k, pcClass P = CBarrier k -> exists b, optBarrier (pcOption P) = Some b) ->
  (forall p, exists x, path_payoff (pcClass P) (pcOption P) p = Ok x) ->
  draws_per_step (mdKind (moModel (pcModel P))) = Some q -> deref (mdStock (moModel (pcModel P))) wm = Ok d ->
  at_coord env k seed dim n g -> (0 <= N <= INT_MAX)%Z ->
  let len := Z.to_nat N * (q * Z.to_nat dim) in
  ((exists v, fst (calculatePrice env la P W N) = Ok v) /\ (forall i, n <= i < n + len -> fits i)) \/
  (fst (calculatePrice env la P W N) = Throw InvalidArgument /\ exists i, n <= i < n + len /\ ~ fits i).
Proof.
  intros P W w wm g N q d n (L1 & L2 & L3) NA A HB HP DQ D G LN len. unfold calculatePrice. rewrite L1, L2, L3.
  assert (GD : gDim g = dim) by apply G.
  pose proof (step_adds env (pcClass P) (pcOption P) (moModel (pcModel P)) wm dim A NA ltac:(lia) HB) as S.
  pose proof (walks_adds _ _ _ _ _ (walks_simulate _ _ _ (optT (pcOption P)) _ DQ D) S HP) as B.
  pose proof (walks_iter T (fun _ => True) _ _ (fun i s _ => B i s) (Z.to_nat N) 0%Z n0 I n g G) as X.
  fold len in X. clear B S.
  destruct (pcClass P) as [|c|c|c|]; [| | | |easy]; cbn [class_step] in X;
    match goal with |- context [let (_, _) := ?run g in _] => destruct (run g) as [res g1] eqn:RR end; cbn [fst];
    unfold single_path_price, asian_price, barrier_price, lookback_price in RR; cbv zeta in RR;
    unfold getSteps, getDim in RR; rewrite ?GD in RR; unfold sbind at 1 in RR;
    (unfold sfor_ulong in RR || (unfold sfor_int in RR; destruct (Z.leb_spec N INT_MAX); [|lia]));
    (destruct X as [(s & g2 & E & _ & _ & F)|(g2 & i & E & J)];
     [left; rewrite E in RR; injection RR as <- <-; split; [eauto|exact F]
     |right; rewrite E in RR; injection RR as <- <-; split; [reflexivity|eauto]]).
Qed.

(** ** What the paths are computed from *)
Definition uniform (i : nat) : T := ndiv (coordinate env k seed dim i) (e_max env k).
Definition normal_of (u : T) : T := match snd_inv_cdf u with Ok z => z | _ => n0 end.

Lemma read_draw : forall n g z g', at_coord env k seed dim n g -> draw env DStdNormal g = (Ok z, g') ->
  at_coord env k seed dim (S n) g' /\ z = normal_of (uniform n).
Proof.
  intros n g z g' G E.
  destruct (draw_at env k seed dim n g DStdNormal ltac:(unfold INT_MAX, UINT_MOD in *; lia) ltac:(left; lia) G) as (h & X & G').
  rewrite X in E. injection E as E1 ->. split; [exact G'|]. unfold normal_of, uniform. cbn [inv_cdf] in E1. now rewrite E1.
Qed.

Lemma fold_seq1 : forall S (f : S -> nat -> S) c b s, fold_left f (seq (Datatypes.S b) c) s = fold_left (fun s j => f s (Datatypes.S j)) (seq b c) s.
Proof. intros S f. induction c as [|c IH]; intros b s; cbn [seq fold_left]; auto. Qed.

Lemma reads_iter : forall S l (stp : (nat -> T) -> S -> S) body,
  (forall i s g s' g' n, at_coord env k seed dim n g -> body i s g = (Ok s', g') ->
     at_coord env k seed dim (n + l) g' /\ s' = stp (fun i => uniform (n + i)) s) ->
  forall c i s g s' g' n, at_coord env k seed dim n g -> siter (T := T) c i body s g = (Ok s', g') ->
  at_coord env k seed dim (n + c * l) g' /\
  s' = fold_left (fun s j => stp (fun i => uniform (n + j * l + i)) s) (seq 0 c) s.
Proof.
  intros S l stp body B. induction c as [|c IH]; intros i s g s' g' n G E; cbn [siter Nat.mul] in *.
  - injection E as <- <-. now rewrite Nat.add_0_r.
  - apply sbind_ok in E. destruct E as (s1 & g1 & E1 & E2). destruct (B _ _ _ _ _ _ G E1) as [G1 ->].
    destruct (IH _ _ _ _ _ _ G1 E2) as [G2 ->]. split; [now rewrite Nat.add_assoc|].
    cbn [seq fold_left]. rewrite fold_seq1. cbn [Nat.mul]. rewrite Nat.add_0_r.
    assert (X : forall L s0, (forall j s1, stp (fun i => uniform (n + l + j * l + i)) s1 = stp (fun i => uniform (n + Datatypes.S j * l + i)) s1) ->
      fold_left (fun s j => stp (fun i => uniform (n + l + j * l + i)) s) L s0 = fold_left (fun s j => stp (fun i => uniform (n + Datatypes.S j * l + i)) s) L s0).
    { induction L as [|x L IL]; intros s0 H; cbn [fold_left]; [reflexivity|]. now rewrite H, IL. }
    apply X. intros j s1. cbn [Nat.mul]. now rewrite Nat.add_assoc.
Qed.

Definition gbm_step (d : StockData T) (r dt : T) (u : nat -> T) (s : T * list T) : T * list T :=
  let '(x, prices) := s in
  let z := normal_of (u 0) in
  let drift := nmul (nsub (nsub r (coupon d)) (nmul (nmul nhalf (getSigma d)) (getSigma d))) dt in
  let diffusion := nmul (nmul (getSigma d) (nsqrt dt)) z in
  let x := nmul x (nexp (nadd drift diffusion)) in
  (x, prices ++ [x]).
Definition heston_step (kappa theta sigma_v rho : T) disc (d : StockData T) (r dt : T) (u : nat -> T) (s : T * T * list T) : T * T * list T :=
  let '(x, V, prices) := s in
  let z1 := normal_of (u 0) in
  let z2 := normal_of (u 1) in
  let zS := nadd (nmul rho z1) (nmul (nsqrt (nsub n1 (nmul rho rho))) z2) in
  let VMax := nmax V n0 in
  let drift := nmul (nsub (nsub r (coupon d)) (nmul nhalf VMax)) dt in
  let diffusion := nmul (nsqrt (nmul VMax dt)) zS in
  let x := nmul x (nexp (nadd drift diffusion)) in
  let V := cir_update disc V dt kappa theta sigma_v z1 in
  (x, V, prices ++ [x]).

(** The path as a function of the uniforms it reads. *)
Definition path_of (m : ModelKind T) (d : StockData T) (r t : T) (u : nat -> T) : list T :=
  let dt := ndiv t (nofZ dim) in
  match m with
  | MGBM => snd (fold_left (fun s j => gbm_step d r dt (fun i => u (j * 1 + i)) s) (seq 0 (Z.to_nat dim)) (getPrice d, []))
  | MHeston kappa theta sigma_v rho v0 disc =>
      snd (fold_left (fun s j => heston_step kappa theta sigma_v rho disc d r dt (fun i => u (j * 2 + i)) s) (seq 0 (Z.to_nat dim)) (getPrice d, v0, []))
  | _ => []
  end.

Lemma read_new : forall n g x g', at_coord env k seed dim n g -> new_dist DStdNormal g = (Ok x, g') ->
  at_coord env k seed dim n g' /\ x = DStdNormal.
Proof.
  intros n g x g' G E. unfold new_dist in E. cbn [Distr_ctor] in E. rewrite ONE in E. injection E as <- <-. split; [|reflexivity].
  destruct G as (Q & D & S & X). repeat split; auto.
Qed.

Lemma fold_steps : forall S (f h : nat -> S -> S) L s, (forall j s, f j s = h j s) ->
  fold_left (fun s j => f j s) L s = fold_left (fun s j => h j s) L s.
Proof. intros S f h. induction L as [|x L IH]; intros s H; cbn [fold_left]; [reflexivity|]. now rewrite H, IH. Qed.

Lemma read_path : forall m w d t q p g g' n, draws_per_step (mdKind m) = Some q -> deref (mdStock m) w = Ok d ->
  at_coord env k seed dim n g -> simulatePrices env m w t g = (Ok p, g') ->
  at_coord env k seed dim (n + q * Z.to_nat dim) g' /\ p = path_of (mdKind m) d (mR w) t (fun i => uniform (n + i)).
Proof.
  intros m w d t q p g g' n DQ D G E. unfold simulatePrices in E. unfold sbind at 1, slift in E. rewrite D in E.
  assert (GD : gDim g = dim) by apply G.
  destruct (mdKind m) as [|kp th sv rh v0 dc| | | |]; try discriminate; injection DQ as <-; cbn [kind_prices path_of] in *.
  - unfold gbm_prices in E. cbv zeta in E. unfold getDim in E. rewrite GD in E.
    apply sbind_ok in E. destruct E as (x & g1 & E1 & E). destruct (read_new _ _ _ _ G E1) as [G1 ->].
    apply sbind_ok in E. destruct E as (st & g2 & E2 & E). injection E as <- <-.
    unfold sfor_int in E2. destruct (Z.leb_spec dim INT_MAX); [|lia].
    eapply (reads_iter _ 1 (gbm_step d (mR w) (ndiv t (nofZ dim)))) in E2; [|clear - DIM|exact G1].
    + destruct E2 as [G2 ->]. split; [now rewrite (Nat.mul_comm 1)|]. f_equal.
      apply (fold_steps _ (fun j s => gbm_step _ _ _ (fun i => uniform (n + j * 1 + i)) s)). intros j [s0 ps]. cbn [gbm_step]. now rewrite Nat.add_assoc.
    + intros i [s ps] h s' h' n0 H B. apply sbind_ok in B. destruct B as (z & h1 & B1 & B). injection B as <- <-.
      destruct (read_draw _ _ _ _ H B1) as [H1 ->]. rewrite Nat.add_1_r. split; [exact H1|]. cbn [gbm_step]. now rewrite Nat.add_0_r.
  - unfold heston_prices in E. cbv zeta in E. unfold getDim in E. rewrite GD in E.
    apply sbind_ok in E. destruct E as (x & g1 & E1 & E). destruct (read_new _ _ _ _ G E1) as [G1 ->].
    apply sbind_ok in E. destruct E as (st & g2 & E2 & E). injection E as <- <-.
    unfold sfor_int in E2. destruct (Z.leb_spec dim INT_MAX); [|lia].
    eapply (reads_iter _ 2 (heston_step kp th sv rh dc d (mR w) (ndiv t (nofZ dim)))) in E2; [|clear - DIM|exact G1].
    + destruct E2 as [G2 ->]. split; [now rewrite (Nat.mul_comm 2)|]. f_equal.
      apply (fold_steps _ (fun j s => heston_step _ _ _ _ _ _ _ _ (fun i => uniform (n + j * 2 + i)) s)). intros j [[s0 v1] ps]. cbn [heston_step]. now rewrite !Nat.add_assoc.
    + intros i [[s v] ps] h s' h' n0 H B. apply sbind_ok in B. destruct B as (z1 & h1 & B1 & B).
      destruct (read_draw _ _ _ _ H B1) as [H1 ->]. apply sbind_ok in B. destruct B as (z2 & h2 & B2 & B). injection B as <- <-.
      destruct (read_draw _ _ _ _ H1 B2) as [H2 ->]. split; [now replace (n0 + 2) with (S (S n0)) by lia|].
      cbn [heston_step]. now rewrite Nat.add_0_r, Nat.add_1_r.
Qed.

Lemma read_runs : forall m w d t q, draws_per_step (mdKind m) = Some q -> deref (mdStock m) w = Ok d ->
  forall N g ps g' n, at_coord env k seed dim n g -> runs (simulatePrices env m w t) N g = (Ok ps, g') ->
  ps = map (fun j => path_of (mdKind m) d (mR w) t (fun i => uniform (n + j * (q * Z.to_nat dim) + i))) (seq 0 N).
Proof.
  intros m w d t q DQ D. induction N as [|N IH]; intros g ps g' n G E; cbn [runs] in E.
  - now injection E as <- <-.
  - destruct (simulatePrices env m w t g) as [[p| |] g1] eqn:E1; try discriminate.
    destruct (runs _ N g1) as [[l| |] g2] eqn:E2; try discriminate. injection E as <- <-.
    destruct (read_path _ _ _ _ _ _ _ _ _ DQ D G E1) as [G1 ->]. rewrite (IH _ _ _ _ G1 E2).
    cbn [seq map]. f_equal; [cbn [Nat.mul]; now rewrite Nat.add_0_r|]. rewrite <- seq_shift, map_map. apply map_ext. intros j.
    cbn [Nat.mul]. now rewrite !Nat.add_assoc.
Qed.

Lemma fold_steps_in : forall S (f h : nat -> S -> S) L s, (forall j s, In j L -> f j s = h j s) ->
  fold_left (fun s j => f j s) L s = fold_left (fun s j => h j s) L s.
Proof. intros S f h. induction L as [|x L IH]; intros s H; cbn [fold_left]; [reflexivity|]. rewrite H by now left. apply IH. intros. apply H. now right. Qed.

Lemma path_of_ext : forall m d r t q u u', draws_per_step m = Some q -> (forall i, i < q * Z.to_nat dim -> u i = u' i) ->
  path_of m d r t u = path_of m d r t u'.
Proof.
  intros m d r t q u u' DQ H. destruct m as [|kp th sv rh v0 dc| | | |]; try discriminate; injection DQ as <-; cbn [path_of]; f_equal.
  - apply (fold_steps_in _ (fun j s => gbm_step _ _ _ (fun i => u (j * 1 + i)) s)). intros j [x ps] I. apply in_seq in I.
    cbn [gbm_step]. now rewrite H by lia.
  - apply (fold_steps_in _ (fun j s => heston_step _ _ _ _ _ _ _ _ (fun i => u (j * 2 + i)) s)). intros j [[x v] ps] I. apply in_seq in I.
    cbn [heston_step]. now rewrite !H by lia.
Qed.
End Quasi.
