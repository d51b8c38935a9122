(** Properties C89-C92: order, error and exactness of the explicit and implicit schemes. *)
From Coq Require Import String List ZArith Bool Lia Reals Lra Psatz.
From Flocq Require Import Core.
From Coquelicot Require Import Coquelicot.
From Verif Require Import M_Num M_Outcome M_Dict M_Stock M_Market M_Payoff M_Option M_Numeric M_Fdm.
From Verif Require Import S_Market S_Model S_Numeric S_Fdm L_Dict L_Numeric L_Fdm P_LinearSystem P_FdmMarch P_FdmScheme P_FdmPrice.
Import ListNotations.
Local Open Scope R_scope.

(** ** Specification vocabulary *)

(** The time at which layer i+1 reads coefficients and boundary values. *)
Definition read_time (kind : SchemeKind) (dt : R) (i : nat) : R :=
  match kind with KExplicit => INR i * dt | _ => INR (i + 1) * dt end.

(** What is left of u_t - (d u_xx + c u_x + r u) when u is replaced by the values [e i j]
    (layer i, node j) and the derivatives by the differences of the scheme. *)
Definition residual (kind : SchemeKind) (k : Coefs R) (dt h : R) (xs : list R) (e : nat -> nat -> R) (i j : nat) : R :=
  let at_layer := match kind with KExplicit => i | _ => (i + 1)%nat end in
  (e (i + 1)%nat j - e i j) / dt -
  space k (read_time kind dt i) (el xs j) h (e at_layer (j - 1)%nat) (e at_layer j) (e at_layer (j + 1)%nat).

(** The conditions under which the scheme does not oscillate: convection is dominated by
    diffusion, nothing grows, and for the explicit scheme the time step is small. *)
Definition no_oscillation (kind : SchemeKind) (k : Coefs R) (dt h : R) (xs : list R) (n : nat) (t : R) : Prop :=
  forall j, (1 <= j <= n - 2)%nat -> let x := el xs j in
    Rabs (kc k t x) * h <= 2 * kd k t x /\ kr k t x <= 0 /\
    (kind = KExplicit -> dt * (2 * kd k t x / (h * h) - kr k t x) <= 1).

(** ** The minimum principle *)
Lemma side_weights : forall h d c, 0 < h -> Rabs c * h <= 2 * d -> 0 <= d / (h * h) - c / (2 * h) /\ 0 <= d / (h * h) + c / (2 * h).
Proof.
  intros h d c HH P.
  replace (d / (h * h) - c / (2 * h)) with ((2 * d - c * h) / (2 * (h * h))) by (field; lra).
  replace (d / (h * h) + c / (2 * h)) with ((2 * d + c * h) / (2 * (h * h))) by (field; lra).
  assert (0 < 2 * (h * h)) by nra. pose proof (Rle_abs c). pose proof (Rle_abs (- c)) as B. rewrite Rabs_Ropp in B.
  split; apply Rdiv_le_0_compat; auto; nra.
Qed.
Lemma space_weights : forall k t x h um u up, 0 < h ->
  space k t x h um u up = (kd k t x / (h * h) - kc k t x / (2 * h)) * (um - u) +
                          (kd k t x / (h * h) + kc k t x / (2 * h)) * (up - u) + kr k t x * u.
Proof. intros. unfold space. field. lra. Qed.

Lemma march_positive : forall kind k dt h xs n m (e : nat -> nat -> R),
  kind = KExplicit \/ kind = KImplicit -> 0 < h -> 0 < dt -> (2 <= n)%nat ->
  (forall i, (i < m)%nat -> no_oscillation kind k dt h xs n (read_time kind dt i)) ->
  (forall j, (j < n)%nat -> 0 <= e 0%nat j) ->
  (forall i, (i < m)%nat -> 0 <= e (i + 1)%nat 0%nat /\ 0 <= e (i + 1)%nat (n - 1)%nat) ->
  (forall i j, (i < m)%nat -> (1 <= j <= n - 2)%nat -> 0 <= residual kind k dt h xs e i j) ->
  forall i j, (i <= m)%nat -> (j < n)%nat -> 0 <= e i j.
Proof.
  intros kind k dt h xs n m e KK HH HT HN NO E0 EB ER. induction i as [|i IH]; intros j I J; [now apply E0|].
  specialize (NO i ltac:(lia)). destruct (EB i ltac:(lia)) as [BL BR]. replace (Datatypes.S i) with (i + 1)%nat by lia.
  assert (IH' : forall j, (j < n)%nat -> 0 <= e i j) by (intros; apply IH; lia). clear IH.
  destruct KK as [-> | ->].
  - destruct (Nat.eq_dec j 0) as [-> |J0]; [easy|]. destruct (Nat.eq_dec j (n - 1)) as [-> |J1]; [easy|].
    destruct (NO j ltac:(lia)) as (PE & RE & CFL). specialize (CFL eq_refl). cbn zeta in *.
    specialize (ER i j ltac:(lia) ltac:(lia)). unfold residual in ER. cbn [read_time] in *.
    rewrite space_weights in ER by easy. destruct (side_weights _ _ _ HH PE) as [A B].
    set (t := INR i * dt) in *. set (x := el xs j) in *.
    set (a := kd k t x / (h * h) - kc k t x / (2 * h)) in *. set (g := kd k t x / (h * h) + kc k t x / (2 * h)) in *.
    assert (AG : a + g = 2 * kd k t x / (h * h)) by (unfold a, g; field; lra).
    rewrite <- AG in CFL. set (r := kr k t x) in *.
    pose proof (IH' j J). pose proof (IH' (j - 1)%nat ltac:(lia)). pose proof (IH' (j + 1)%nat ltac:(lia)).
    assert (Q : 0 <= (e (i + 1)%nat j - e i j) - dt * (a * (e i (j - 1)%nat - e i j) + g * (e i (j + 1)%nat - e i j) + r * e i j)).
    { replace (e (i + 1)%nat j - e i j - dt * (a * (e i (j - 1)%nat - e i j) + g * (e i (j + 1)%nat - e i j) + r * e i j))
        with (dt * ((e (i + 1)%nat j - e i j) / dt - (a * (e i (j - 1)%nat - e i j) + g * (e i (j + 1)%nat - e i j) + r * e i j))) by (field; lra).
      apply Rmult_le_pos; lra. }
    assert (0 <= (1 - dt * (a + g - r)) * e i j) by (apply Rmult_le_pos; lra).
    assert (0 <= dt * a * e i (j - 1)%nat) by (apply Rmult_le_pos; [apply Rmult_le_pos; lra|easy]).
    assert (0 <= dt * g * e i (j + 1)%nat) by (apply Rmult_le_pos; [apply Rmult_le_pos; lra|easy]).
    lra.
  - destruct (argmin (e (i + 1)%nat) n ltac:(lia)) as (l & L & M).
    enough (0 <= e (i + 1)%nat l) by (specialize (M j J); lra).
    destruct (Rle_lt_dec 0 (e (i + 1)%nat l)) as [|NEG]; [easy|].
    destruct (Nat.eq_dec l 0) as [-> |J0]; [easy|]. destruct (Nat.eq_dec l (n - 1)) as [-> |J1]; [easy|].
    destruct (NO l ltac:(lia)) as (PE & RE & _). cbn zeta in *.
    specialize (ER i l ltac:(lia) ltac:(lia)). unfold residual in ER. cbn [read_time] in *.
    rewrite space_weights in ER by easy. destruct (side_weights _ _ _ HH PE) as [A B].
    pose proof (M (l - 1)%nat ltac:(lia)). pose proof (M (l + 1)%nat ltac:(lia)). pose proof (IH' l L).
    set (a := _ - _ / _) in A, ER. set (g := _ + _ / _) in B, ER. set (r := kr _ _ _) in *.
    assert (0 <= a * (e (i + 1)%nat (l - 1)%nat - e (i + 1)%nat l)) by (apply Rmult_le_pos; lra).
    assert (0 <= g * (e (i + 1)%nat (l + 1)%nat - e (i + 1)%nat l)) by (apply Rmult_le_pos; lra).
    assert (0 <= r * e (i + 1)%nat l) by nra.
    assert (Q : 0 <= (e (i + 1)%nat l - e i l) / dt) by lra.
    assert (0 <= (e (i + 1)%nat l - e i l)).
    { replace (e (i + 1)%nat l - e i l) with ((e (i + 1)%nat l - e i l) / dt * dt) by (field; lra). apply Rmult_le_pos; lra. }
    lra.
Qed.

(** ** Runs as sequences of layers *)
Definition scheme_layer (kind : SchemeKind) :=
  match kind with KExplicit => explicit_layer | _ => implicit_layer end.

Lemma layers_seq : forall link u m v, layers link u m v ->
  exists f : nat -> list R, f 0%nat = u /\ f m = v /\ forall i, (i < m)%nat -> link i (f i) (f (i + 1)%nat).
Proof.
  intros link u m v H. induction H as [|m v v' H (f & F0 & FM & FL) K].
  - exists (fun _ => u). repeat split; lia.
  - exists (fun i => if Nat.leb i m then f i else v'). split; [easy|]. split.
    { destruct (Nat.leb_spec (Datatypes.S m) m); [lia|easy]. }
    intros i I. destruct (Nat.leb_spec i m); [|lia]. destruct (Nat.leb_spec (i + 1) m); [apply FL; lia|].
    replace i with m by lia. now rewrite FM.
Qed.

Lemma layer_residual : forall kind k dt h xs n i (f : nat -> list R), kind = KExplicit \/ kind = KImplicit ->
  scheme_layer kind k dt h xs n i (f i) (f (i + 1)%nat) ->
  el (f (i + 1)%nat) 0 = kl k (read_time kind dt i) (el xs 0) /\
  el (f (i + 1)%nat) (n - 1) = kg k (read_time kind dt i) (el xs (n - 1)) /\
  forall j, (1 <= j <= n - 2)%nat -> residual kind k dt h xs (fun i j => el (f i) j) i j = - kf k (read_time kind dt i) (el xs j).
Proof.
  intros kind k dt h xs n i f [-> | ->] (L & B0 & B1 & EQ); repeat split; auto; intros j J; specialize (EQ j J);
    unfold explicit_eq, implicit_eq, space_at in EQ; unfold residual; cbn [read_time]; rewrite EQ; ring.
Qed.

(** The residual is linear, and depends on the equation through d, c, r only. *)
Lemma residual_plus : forall kind k dt h xs a b e i j,
  residual kind k dt h xs (fun i j => a i j + b * e i j) i j = residual kind k dt h xs a i j + b * residual kind k dt h xs e i j.
Proof. intros. unfold residual, space. destruct kind; cbn zeta; unfold Rdiv; ring. Qed.
Lemma residual_minus : forall kind k dt h xs a e i j,
  residual kind k dt h xs (fun i j => a i j - e i j) i j = residual kind k dt h xs a i j - residual kind k dt h xs e i j.
Proof. intros. unfold residual, space. destruct kind; cbn zeta; unfold Rdiv; ring. Qed.
Lemma residual_same : forall kind k k' dt h xs e i j,
  (forall t x, kd k' t x = kd k t x /\ kc k' t x = kc k t x /\ kr k' t x = kr k t x) ->
  residual kind k' dt h xs e i j = residual kind k dt h xs e i j.
Proof.
  intros kind k k' dt h xs e i j S. unfold residual, space. destruct (S (read_time kind dt i) (el xs j)) as (-> & -> & ->). reflexivity.
Qed.

Lemma read_time_in : forall kind dt m tDom i, (i < m)%nat -> 0 < dt -> INR m * dt = tDom -> 0 <= read_time kind dt i <= tDom.
Proof.
  intros kind dt m tDom i I HT E. apply lt_INR in I as I1. assert (INR (i + 1) <= INR m) by (apply le_INR; lia). pose proof (pos_INR i). pose proof (pos_INR (i + 1)).
  destruct kind; cbn [read_time]; split; nra.
Qed.

(** What the constructor fixes. *)
Lemma ctor_grid : forall kind xDom J tDom N p o ip sv mem w (cf : Conf R) s,
  (4 <= J < ULONG_MOD)%Z -> (2 <= N < ULONG_MOD)%Z -> 0 < xDom -> 0 < tDom ->
  Fdm_ctor kind xDom J tDom N p o ip sv mem w = Ok (cf, s) ->
  let n := Z.to_nat J in let m := Z.to_nat (N - 1) in let h := xDom / (IZR J - 1) in let dt := tDom / (IZR N - 1) in
  0 < h /\ 0 < dt /\ INR m * dt = tDom /\ (4 <= n)%nat /\ (1 <= m)%nat /\
  cX cf = map (fun j => INR j * h) (seq 0 n) /\
  (forall j, (j < n)%nat -> el (cX cf) j = INR j * h /\ 0 <= el (cX cf) j <= xDom) /\
  el (cX cf) 0 = 0 /\ el (cX cf) (n - 1) = xDom /\
  (forall j, (j < n)%nat -> initialCondition p w (el (cX cf) j) = Ok (el (fOld s) j)).
Proof.
  intros kind xDom J tDom N p o ip sv mem w cf s HJ HN HX HT E n m h dt.
  assert (HJ' : (2 <= J < ULONG_MOD)%Z) by lia.
  destruct (C66_grid _ _ _ _ _ _ _ _ _ _ _ _ _ HJ' HX E) as (LX & X0 & X1 & _ & _ & LO & IV).
  pose proof (grid_el _ _ _ _ _ _ _ _ _ _ _ _ _ HJ' E) as GE. fold h in GE. fold n in LX, X0, X1, LO, IV, GE.
  assert (PN : 0 < IZR N - 1) by (assert (2 <= IZR N) by (apply IZR_le; lia); lra).
  assert (PJ : 0 < IZR J - 1) by (assert (4 <= IZR J) by (apply IZR_le; lia); lra).
  assert (HH : 0 < h) by (now apply Rdiv_lt_0_compat). assert (DT : 0 < dt) by (now apply Rdiv_lt_0_compat).
  assert (HD : h * (IZR J - 1) = xDom) by (unfold h; field; lra).
  assert (NJ : INR n = IZR J) by (unfold n; rewrite INR_IZR_INZ, Z2Nat.id by lia; easy).
  split; [easy|]. split; [easy|]. split.
  { unfold m, dt. rewrite INR_IZR_INZ, Z2Nat.id by lia. rewrite minus_IZR. field. lra. }
  split; [unfold n; lia|]. split; [unfold m; lia|]. split.
  { apply (list_at (cX cf)); [now rewrite map_length, seq_length|]. intros j JJ. rewrite at_map_seq by lia.
    change (@at_ R Rnum) with el. apply GE. lia. }
  repeat split; auto.
  - rewrite GE by easy. pose proof (pos_INR j). nra.
  - rewrite GE by easy. assert (INR j <= INR n - 1) by (change 1 with (INR 1); rewrite <- (minus_INR n 1) by lia; apply le_INR; lia).
    rewrite <- HD, <- NJ. nra.
Qed.

Lemma scheme_run : forall kind lu xDom J tDom N p o ip mem w0 (cf : Conf R) s w k,
  kind = KExplicit \/ kind = KImplicit ->
  (4 <= J < ULONG_MOD)%Z -> (J - 4 <= INT_MAX)%Z -> (2 <= N < ULONG_MOD)%Z -> 0 < xDom -> 0 < tDom ->
  Fdm_ctor kind xDom J tDom N p o ip (Some ThomasAlgorithm) mem w0 = Ok (cf, s) -> evaluates p w k ->
  let n := Z.to_nat J in let m := Z.to_nat (N - 1) in let h := xDom / (IZR J - 1) in let dt := tDom / (IZR N - 1) in
  (kind = KImplicit -> forall t, 0 <= t <= tDom -> stable k h (cX cf) n t) ->
  exists v s' f, (forall fuel, (m <= fuel)%nat -> solve lu cf w fuel s = Some (Ok v, s')) /\
    f 0%nat = fOld s /\ f m = v /\ forall i, (i < m)%nat -> scheme_layer kind k dt h (cX cf) n i (f i) (f (i + 1)%nat).
Proof.
  intros kind lu xDom J tDom N p o ip mem w0 cf s w k KK HJ MX HN HX HT E EV n m h dt ST.
  assert (HJ' : (2 <= J < ULONG_MOD)%Z) by lia.
  destruct KK as [-> | ->].
  - destruct (C68_run lu _ _ _ _ _ _ _ _ _ _ _ _ w k HJ' HN HX HT E EV) as (v & s' & SO & LY).
    destruct (layers_seq _ _ _ _ LY) as (f & F0 & FM & FL). exists v, s', f. auto.
  - destruct (C69_run lu _ _ _ _ _ _ _ _ _ _ _ w k HJ MX HN HX HT E EV (ST eq_refl)) as (v & s' & SO & LY & _).
    destruct (layers_seq _ _ _ _ LY) as (f & F0 & FM & FL). exists v, s', f. auto.
Qed.

Lemma no_oscillation_stable : forall kind k dt h xs n t, no_oscillation kind k dt h xs n t -> stable k h xs n t.
Proof. intros kind k dt h xs n t H j J. destruct (H j J) as (A & B & _). easy. Qed.

(** ** C89: comparison.  Two equations with the same operator; the data of the second lie
    above those of the first. *)
Theorem C89_comparison : forall kind lu xDom J tDom N p p' o o' ip ip' mem mem' w0 w0' (cf cf' : Conf R) s s' w w' k k',
  kind = KExplicit \/ kind = KImplicit ->
  (4 <= J < ULONG_MOD)%Z -> (J - 4 <= INT_MAX)%Z -> (2 <= N < ULONG_MOD)%Z -> 0 < xDom -> 0 < tDom ->
  Fdm_ctor kind xDom J tDom N p o ip (Some ThomasAlgorithm) mem w0 = Ok (cf, s) -> evaluates p w k ->
  Fdm_ctor kind xDom J tDom N p' o' ip' (Some ThomasAlgorithm) mem' w0' = Ok (cf', s') -> evaluates p' w' k' ->
  let n := Z.to_nat J in let m := Z.to_nat (N - 1) in let h := xDom / (IZR J - 1) in let dt := tDom / (IZR N - 1) in
  (forall t, 0 <= t <= tDom -> no_oscillation kind k dt h (cX cf) n t) ->
  (forall t x, kd k' t x = kd k t x /\ kc k' t x = kc k t x /\ kr k' t x = kr k t x) ->
  (forall t x, 0 <= t <= tDom -> kf k' t x <= kf k t x) ->
  (forall t, 0 <= t <= tDom -> kl k t 0 <= kl k' t 0 /\ kg k t xDom <= kg k' t xDom) ->
  (forall x a b, 0 <= x <= xDom -> initialCondition p w0 x = Ok a -> initialCondition p' w0' x = Ok b -> a <= b) ->
  exists v v' s1 s1', (forall fuel, (m <= fuel)%nat -> solve lu cf w fuel s = Some (Ok v, s1) /\ solve lu cf' w' fuel s' = Some (Ok v', s1')) /\
    forall j, (j < n)%nat -> el v j <= el v' j.
Proof.
  intros kind lu xDom J tDom N p p' o o' ip ip' mem mem' w0 w0' cf cf' s s' w w' k k' KK HJ MX HN HX HT E EV E' EV' n m h dt NO SAME FF BB II.
  destruct (ctor_grid _ _ _ _ _ _ _ _ _ _ _ _ _ HJ HN HX HT E) as (HH & DT & TD & N4 & M1 & XS & GE & X0 & X1 & IV).
  destruct (ctor_grid _ _ _ _ _ _ _ _ _ _ _ _ _ HJ HN HX HT E') as (_ & _ & _ & _ & _ & XS' & _ & _ & _ & IV').
  fold h dt n m in HH, DT, TD, N4, M1, XS, GE, X0, X1, IV, XS', IV'. assert (XX : cX cf' = cX cf) by congruence.
  assert (ST : forall t, 0 <= t <= tDom -> stable k h (cX cf) n t) by (intros t T; eapply no_oscillation_stable; eauto).
  assert (ST' : forall t, 0 <= t <= tDom -> stable k' h (cX cf') n t).
  { intros t T j JJ. rewrite XX. destruct (SAME t (el (cX cf) j)) as (-> & -> & ->). now apply ST. }
  destruct (scheme_run kind lu _ _ _ _ _ _ _ _ _ _ _ w k KK HJ MX HN HX HT E EV (fun _ => ST)) as (v & s1 & f & SO & F0 & FM & FL).
  destruct (scheme_run kind lu _ _ _ _ _ _ _ _ _ _ _ w' k' KK HJ MX HN HX HT E' EV' (fun _ => ST')) as (v' & s1' & f' & SO' & F0' & FM' & FL').
  fold h dt n m in SO, FM, FL, SO', FM', FL'. rewrite XX in FL', IV'.
  exists v, v', s1, s1'. split; [intros fuel F; split; auto|].
  assert (P : forall i j, (i <= m)%nat -> (j < n)%nat -> 0 <= el (f' i) j - el (f i) j).
  { apply (march_positive kind k dt h (cX cf) n m (fun i j => el (f' i) j - el (f i) j) KK HH DT); [lia| | | |].
    - intros i I. apply NO. now apply (read_time_in kind dt m).
    - intros j JJ. rewrite F0, F0'. specialize (II (el (cX cf) j) _ _ (proj2 (GE j JJ)) (IV j JJ) (IV' j JJ)). lra.
    - intros i I. destruct (layer_residual kind k dt h (cX cf) n i f KK (FL i I)) as (-> & -> & _).
      destruct (layer_residual kind k' dt h (cX cf) n i f' KK (FL' i I)) as (-> & -> & _).
      rewrite X0, X1. destruct (BB (read_time kind dt i)) as [B1 B2]; [now apply (read_time_in kind dt m)|]. lra.
    - intros i j I JJ. rewrite residual_minus.
      destruct (layer_residual kind k dt h (cX cf) n i f KK (FL i I)) as (_ & _ & ->); [|easy].
      rewrite <- (residual_same kind k k') by easy.
      destruct (layer_residual kind k' dt h (cX cf) n i f' KK (FL' i I)) as (_ & _ & ->); [|easy].
      specialize (FF (read_time kind dt i) (el (cX cf) j) ltac:(now apply (read_time_in kind dt m))). lra. }
  intros j JJ. specialize (P m j ltac:(lia) JJ). rewrite FM, FM' in P. lra.
Qed.
Print Assumptions C89_comparison.

(** ** Vanilla options under the Black-Scholes equation *)

(** Sizes of the grid, and the conditions on market and grid. *)
Definition gridded (kind : SchemeKind) (xDom : R) (J : Z) (tDom : R) (N : Z) : Prop :=
  (kind = KExplicit \/ kind = KImplicit) /\
  (4 <= J < ULONG_MOD)%Z /\ (J - 4 <= INT_MAX)%Z /\ (2 <= N < ULONG_MOD)%Z /\ 0 < xDom /\ 0 < tDom.
Definition calm (kind : SchemeKind) (J : Z) (tDom : R) (N : Z) (sigma r c : R) : Prop :=
  Rabs (r - c) <= sigma * sigma /\ 0 <= r /\
  (kind = KExplicit -> tDom / (IZR N - 1) * (sigma * sigma * ((IZR J - 2) * (IZR J - 2)) + r) <= 1).
(** A solver for a vanilla option as the constructor leaves it. *)
Definition vanilla_solver kind xDom J tDom N (ty : PayoffType) (K : R) (o : Option R) (cf : Conf R) (s : Fdm R) : Prop :=
  (ty = Call \/ ty = Put) /\ optPayoff o = PVanilla ty K /\
  exists ip mem w0, Fdm_ctor kind xDom J tDom N (BlackScholesPDE o) o ip (Some ThomasAlgorithm) mem w0 = Ok (cf, s).
Definition node (xDom : R) (J : Z) (j : nat) : R := INR j * (xDom / (IZR J - 1)).
Definition nodes (xDom : R) (J : Z) : list R := map (node xDom J) (seq 0 (Z.to_nat J)).
Definition exercise (ty : PayoffType) (K x : R) : R := match ty with Call => Rmax (x - K) 0 | _ => Rmax (K - x) 0 end.

(** The operator alone. *)
Definition bs_operator (sigma r c : R) : Coefs R := bs_coefs sigma r c Call 0 0.

Lemma bs_no_oscillation : forall kind xDom J tDom N sigma r c t,
  gridded kind xDom J tDom N -> calm kind J tDom N sigma r c ->
  no_oscillation kind (bs_operator sigma r c) (tDom / (IZR N - 1)) (xDom / (IZR J - 1)) (nodes xDom J) (Z.to_nat J) t.
Proof.
  intros kind xDom J tDom N sigma r c t (KK & HJ & _ & HN & HX & HT) (V & R0 & CFL) j JJ x.
  assert (PN : 0 < IZR N - 1) by (assert (2 <= IZR N) by (apply IZR_le; lia); lra).
  assert (PJ : 0 < IZR J - 1) by (assert (4 <= IZR J) by (apply IZR_le; lia); lra).
  set (dt := tDom / (IZR N - 1)) in *. set (h := xDom / (IZR J - 1)) in *.
  assert (DT : 0 < dt) by (now apply Rdiv_lt_0_compat). assert (HH : 0 < h) by (now apply Rdiv_lt_0_compat).
  assert (XJ : x = INR j * h) by (unfold x, nodes, el; rewrite nth_map_seq by lia; reflexivity).
  assert (NJ : INR (Z.to_nat J) = IZR J) by (rewrite INR_IZR_INZ, Z2Nat.id by lia; easy).
  split; [rewrite XJ; apply bs_peclet; auto; lia|]. split; [cbn; lra|]. intros KE. eapply Rle_trans; [|exact (CFL KE)].
  apply Rmult_le_compat_l; [lra|]. rewrite XJ. cbn [kd kr bs_operator bs_coefs].
  replace (2 * (sigma * sigma * (INR j * h) * (INR j * h) / 2) / (h * h) - - r) with (sigma * sigma * (INR j * INR j) + r) by (field; lra).
  apply Rplus_le_compat_r. apply Rmult_le_compat_l; [nra|]. assert (0 <= INR j) by apply pos_INR.
  assert (INR j <= IZR J - 2) by (rewrite <- NJ; change 2 with (INR 2); rewrite <- (minus_INR _ 2) by lia; apply le_INR; lia).
  apply Rmult_le_compat; lra.
Qed.

Lemma vanilla_layers : forall kind lu xDom J tDom N ty K o cf s w d,
  gridded kind xDom J tDom N -> vanilla_solver kind xDom J tDom N ty K o cf s ->
  read (optTicker o) w = Ok d -> (kind = KImplicit -> calm kind J tDom N (sigma_ d) (mR w) (dividend d)) ->
  let n := Z.to_nat J in let m := Z.to_nat (N - 1) in let h := xDom / (IZR J - 1) in let dt := tDom / (IZR N - 1) in
  let k := bs_coefs (sigma_ d) (mR w) (dividend d) ty K (optT o) in
  cX cf = nodes xDom J /\
  exists v s' (f : nat -> list R), (forall fuel, (m <= fuel)%nat -> solve lu cf w fuel s = Some (Ok v, s')) /\ f m = v /\
    (forall j, (j < n)%nat -> el (f 0%nat) j = exercise ty K (node xDom J j)) /\
    forall i, (i < m)%nat -> 0 <= read_time kind dt i <= tDom /\
      el (f (i + 1)%nat) 0 = kl k (read_time kind dt i) 0 /\
      el (f (i + 1)%nat) (n - 1) = kg k (read_time kind dt i) xDom /\
      forall j, (1 <= j <= n - 2)%nat ->
        residual kind (bs_operator (sigma_ d) (mR w) (dividend d)) dt h (nodes xDom J) (fun i j => el (f i) j) i j = 0.
Proof.
  intros kind lu xDom J tDom N ty K o cf s w d G (TY & PO & ip & mem & w0 & E) RD CA n m h dt k.
  pose proof G as (KK & HJ & MX & HN & HX & HT).
  pose proof (bs_evaluates o w d ty K RD PO TY) as EV. fold k in EV.
  destruct (ctor_grid _ _ _ _ _ _ _ _ _ _ _ _ _ HJ HN HX HT E) as (HH & DT & TD & N4 & M1 & XS & GE & X0 & X1 & IV).
  fold h dt n m in HH, DT, TD, N4, M1, XS, GE, X0, X1, IV. change (cX cf = nodes xDom J) in XS. split; [exact XS|].
  assert (ST : kind = KImplicit -> forall t, 0 <= t <= tDom -> stable k h (cX cf) n t).
  { intros KI t T. rewrite XS. exact (no_oscillation_stable _ _ _ _ _ _ _ (bs_no_oscillation kind xDom J tDom N _ _ _ t G (CA KI))). }
  destruct (scheme_run kind lu _ _ _ _ _ _ _ _ _ _ _ w k KK HJ MX HN HX HT E EV ST) as (v & s' & f & SO & F0 & FM & FL).
  fold h dt n m in SO, FM, FL. exists v, s', f. split; [exact SO|]. split; [exact FM|]. split.
  { intros j JJ. rewrite F0. specialize (IV j JJ). apply (vanilla_initial o w0 ty K) in IV; auto.
    rewrite IV, (proj1 (GE j JJ)). reflexivity. }
  intros i I. split; [now apply (read_time_in kind dt m)|].
  destruct (layer_residual kind k dt h (cX cf) n i f KK (FL i I)) as (-> & -> & RS). rewrite X0, X1. repeat split.
  intros j JJ. specialize (RS j JJ). rewrite XS in RS. cbn [kf k bs_coefs] in RS.
  transitivity (residual kind k dt h (nodes xDom J) (fun i j => el (f i) j) i j); [|lra].
  apply residual_same. intros; cbn; auto.
Qed.

Lemma discount_in : forall r mat tDom t, 0 <= r -> tDom <= mat -> 0 <= t <= tDom -> 0 < exp (- r * (mat - t)) <= 1.
Proof. intros. split; [apply exp_pos|]. rewrite <- exp_0. apply exp_le. nra. Qed.

(** Strikes: the value of a call falls, the value of a put rises, by no more than the
    difference of the strikes. *)
Theorem C89_strike : forall kind lu xDom J tDom N ty K1 K2 o1 o2 cf1 s1 cf2 s2 w d,
  gridded kind xDom J tDom N ->
  vanilla_solver kind xDom J tDom N ty K1 o1 cf1 s1 -> vanilla_solver kind xDom J tDom N ty K2 o2 cf2 s2 ->
  optTicker o1 = optTicker o2 -> optT o1 = optT o2 -> tDom <= optT o1 ->
  read (optTicker o1) w = Ok d -> calm kind J tDom N (sigma_ d) (mR w) (dividend d) -> K1 <= K2 ->
  exists v1 v2 s1' s2', (forall fuel, (Z.to_nat (N - 1) <= fuel)%nat ->
      solve lu cf1 w fuel s1 = Some (Ok v1, s1') /\ solve lu cf2 w fuel s2 = Some (Ok v2, s2')) /\
    forall j, (j < Z.to_nat J)%nat ->
      match ty with Call => 0 <= el v1 j - el v2 j <= K2 - K1 | _ => 0 <= el v2 j - el v1 j <= K2 - K1 end.
Proof.
  intros kind lu xDom J tDom N ty K1 K2 o1 o2 cf1 s1 cf2 s2 w d G V1 V2 TK MT TM RD CA KL.
  assert (RD2 : read (optTicker o2) w = Ok d) by congruence.
  destruct (vanilla_layers kind lu xDom J tDom N ty K1 o1 cf1 s1 w d G V1 RD (fun _ => CA)) as (_ & v1 & s1' & f1 & SO1 & FM1 & I1 & L1).
  destruct (vanilla_layers kind lu xDom J tDom N ty K2 o2 cf2 s2 w d G V2 RD2 (fun _ => CA)) as (_ & v2 & s2' & f2 & SO2 & FM2 & I2 & L2).
  exists v1, v2, s1', s2'. split; [intros fuel F; split; auto|].
  pose proof G as (KK & HJ & MX & HN & HX & HT).
  assert (PN : 0 < IZR N - 1) by (assert (2 <= IZR N) by (apply IZR_le; lia); lra).
  assert (PJ : 0 < IZR J - 1) by (assert (4 <= IZR J) by (apply IZR_le; lia); lra).
  assert (DT : 0 < tDom / (IZR N - 1)) by (now apply Rdiv_lt_0_compat).
  assert (HH : 0 < xDom / (IZR J - 1)) by (now apply Rdiv_lt_0_compat).
  set (op := bs_operator (sigma_ d) (mR w) (dividend d)) in *. destruct CA as (CV & R0 & CFL) eqn:CA'. clear CA'.
  assert (NO : forall i, (i < Z.to_nat (N - 1))%nat -> no_oscillation kind op (tDom / (IZR N - 1)) (xDom / (IZR J - 1)) (nodes xDom J) (Z.to_nat J) (read_time kind (tDom / (IZR N - 1)) i)).
  { intros i I. apply bs_no_oscillation; [exact G|]. repeat split; auto. }
  (* a = +1 for calls, -1 for puts: 0 <= a (u1 - u2) <= K2 - K1 on every layer *)
  set (a := match ty with Call => 1 | _ => -1 end).
  destruct V1 as (TY & _).
  assert (LOW : forall i j, (i <= Z.to_nat (N - 1))%nat -> (j < Z.to_nat J)%nat -> 0 <= a * (el (f1 i) j - el (f2 i) j)).
  { apply (march_positive kind op _ _ (nodes xDom J) _ _ (fun i j => a * (el (f1 i) j - el (f2 i) j)) KK HH DT); [lia|exact NO| | |].
    - intros j JJ. rewrite I1, I2 by easy. unfold exercise, a. destruct TY as [-> | ->]; unfold Rmax; destruct (Rle_dec _ _), (Rle_dec _ _); lra.
    - intros i I. destruct (L1 i I) as (TI & -> & -> & _). destruct (L2 i I) as (_ & -> & -> & _). cbn [kl kg bs_coefs].
      rewrite <- MT. pose proof (discount_in (mR w) (optT o1) tDom _ R0 TM TI) as DI. set (D := exp _) in *.
      unfold a; destruct TY as [-> | ->]; split; nra.
    - intros i j I JJ. replace (residual _ _ _ _ _ _ i j) with
        (a * (residual kind op (tDom / (IZR N - 1)) (xDom / (IZR J - 1)) (nodes xDom J) (fun i j => el (f1 i) j) i j -
              residual kind op (tDom / (IZR N - 1)) (xDom / (IZR J - 1)) (nodes xDom J) (fun i j => el (f2 i) j) i j))
        by (unfold residual, space; destruct kind; cbn zeta; unfold Rdiv; ring).
      destruct (L1 i I) as (_ & _ & _ & ->); [|easy]. destruct (L2 i I) as (_ & _ & _ & ->); [|easy]. lra. }
  assert (HIGH : forall i j, (i <= Z.to_nat (N - 1))%nat -> (j < Z.to_nat J)%nat -> 0 <= (K2 - K1) - a * (el (f1 i) j - el (f2 i) j)).
  { apply (march_positive kind op _ _ (nodes xDom J) _ _ (fun i j => (K2 - K1) - a * (el (f1 i) j - el (f2 i) j)) KK HH DT); [lia|exact NO| | |].
    - intros j JJ. rewrite I1, I2 by easy. unfold exercise, a. destruct TY as [-> | ->]; unfold Rmax; destruct (Rle_dec _ _), (Rle_dec _ _); lra.
    - intros i I. destruct (L1 i I) as (TI & -> & -> & _). destruct (L2 i I) as (_ & -> & -> & _). cbn [kl kg bs_coefs].
      rewrite <- MT. pose proof (discount_in (mR w) (optT o1) tDom _ R0 TM TI) as DI. set (D := exp _) in *.
      unfold a; destruct TY as [-> | ->]; split; nra.
    - intros i j I JJ. replace (residual _ _ _ _ _ _ i j) with (mR w * (K2 - K1) -
        a * (residual kind op (tDom / (IZR N - 1)) (xDom / (IZR J - 1)) (nodes xDom J) (fun i j => el (f1 i) j) i j -
              residual kind op (tDom / (IZR N - 1)) (xDom / (IZR J - 1)) (nodes xDom J) (fun i j => el (f2 i) j) i j))
        by (unfold residual, space, op, bs_operator, bs_coefs; cbn [kd kc kr]; destruct kind; cbn zeta; unfold Rdiv; ring).
      destruct (L1 i I) as (_ & _ & _ & ->); [|easy]. destruct (L2 i I) as (_ & _ & _ & ->); [|easy]. nra. }
  intros j JJ. specialize (LOW _ j (le_n _) JJ). specialize (HIGH _ j (le_n _) JJ). rewrite FM1, FM2 in LOW, HIGH.
  unfold a in *. destruct TY as [-> | ->]; lra.
Qed.
Print Assumptions C89_strike.

(** The value is convex in the strike. *)
Theorem C89_convex : forall kind lu xDom J tDom N ty th K1 K2 K3 o1 o2 o3 cf1 s1 cf2 s2 cf3 s3 w d,
  gridded kind xDom J tDom N ->
  vanilla_solver kind xDom J tDom N ty K1 o1 cf1 s1 -> vanilla_solver kind xDom J tDom N ty K2 o2 cf2 s2 ->
  vanilla_solver kind xDom J tDom N ty K3 o3 cf3 s3 ->
  optTicker o1 = optTicker o2 -> optTicker o3 = optTicker o2 -> optT o1 = optT o2 -> optT o3 = optT o2 ->
  read (optTicker o2) w = Ok d -> calm kind J tDom N (sigma_ d) (mR w) (dividend d) ->
  0 <= th <= 1 -> K2 = th * K1 + (1 - th) * K3 ->
  exists v1 v2 v3 s1' s2' s3', (forall fuel, (Z.to_nat (N - 1) <= fuel)%nat ->
      solve lu cf1 w fuel s1 = Some (Ok v1, s1') /\ solve lu cf2 w fuel s2 = Some (Ok v2, s2') /\
      solve lu cf3 w fuel s3 = Some (Ok v3, s3')) /\
    forall j, (j < Z.to_nat J)%nat -> el v2 j <= th * el v1 j + (1 - th) * el v3 j.
Proof.
  intros kind lu xDom J tDom N ty th K1 K2 K3 o1 o2 o3 cf1 s1 cf2 s2 cf3 s3 w d G V1 V2 V3 TK1 TK3 MT1 MT3 RD CA TH KC.
  assert (RD1 : read (optTicker o1) w = Ok d) by congruence. assert (RD3 : read (optTicker o3) w = Ok d) by congruence.
  destruct (vanilla_layers kind lu xDom J tDom N ty K1 o1 cf1 s1 w d G V1 RD1 (fun _ => CA)) as (_ & v1 & s1' & f1 & SO1 & FM1 & I1 & L1).
  destruct (vanilla_layers kind lu xDom J tDom N ty K2 o2 cf2 s2 w d G V2 RD (fun _ => CA)) as (_ & v2 & s2' & f2 & SO2 & FM2 & I2 & L2).
  destruct (vanilla_layers kind lu xDom J tDom N ty K3 o3 cf3 s3 w d G V3 RD3 (fun _ => CA)) as (_ & v3 & s3' & f3 & SO3 & FM3 & I3 & L3).
  exists v1, v2, v3, s1', s2', s3'. split; [intros fuel F; repeat split; auto|].
  pose proof G as (KK & HJ & MX & HN & HX & HT).
  assert (PN : 0 < IZR N - 1) by (assert (2 <= IZR N) by (apply IZR_le; lia); lra).
  assert (PJ : 0 < IZR J - 1) by (assert (4 <= IZR J) by (apply IZR_le; lia); lra).
  assert (DT : 0 < tDom / (IZR N - 1)) by (now apply Rdiv_lt_0_compat).
  assert (HH : 0 < xDom / (IZR J - 1)) by (now apply Rdiv_lt_0_compat).
  set (op := bs_operator (sigma_ d) (mR w) (dividend d)) in *.
  destruct V1 as (TY & _).
  assert (LOW : forall i j, (i <= Z.to_nat (N - 1))%nat -> (j < Z.to_nat J)%nat -> 0 <= th * el (f1 i) j + (1 - th) * el (f3 i) j - el (f2 i) j).
  { apply (march_positive kind op _ _ (nodes xDom J) _ _ (fun i j => th * el (f1 i) j + (1 - th) * el (f3 i) j - el (f2 i) j) KK HH DT); [lia| | | |].
    - intros i I. now apply bs_no_oscillation.
    - intros j JJ. rewrite I1, I2, I3 by easy. unfold exercise. destruct TY as [-> | ->]; unfold Rmax; destruct (Rle_dec _ _), (Rle_dec _ _), (Rle_dec _ _); nra.
    - intros i I. destruct (L1 i I) as (TI & -> & -> & _). destruct (L2 i I) as (_ & -> & -> & _). destruct (L3 i I) as (_ & -> & -> & _). cbn [kl kg bs_coefs].
      rewrite MT1, MT3. set (D := exp _) in *. destruct TY as [-> | ->]; split; try lra; apply Req_le; rewrite KC; ring.
    - intros i j I JJ. replace (residual _ _ _ _ _ _ i j) with
        (th * residual kind op (tDom / (IZR N - 1)) (xDom / (IZR J - 1)) (nodes xDom J) (fun i j => el (f1 i) j) i j +
         (1 - th) * residual kind op (tDom / (IZR N - 1)) (xDom / (IZR J - 1)) (nodes xDom J) (fun i j => el (f3 i) j) i j -
              residual kind op (tDom / (IZR N - 1)) (xDom / (IZR J - 1)) (nodes xDom J) (fun i j => el (f2 i) j) i j)
        by (unfold residual, space; destruct kind; cbn zeta; unfold Rdiv; ring).
      destruct (L1 i I) as (_ & _ & _ & ->); [|easy]. destruct (L2 i I) as (_ & _ & _ & ->); [|easy].
      destruct (L3 i I) as (_ & _ & _ & ->); [|easy]. lra. }
  intros j JJ. specialize (LOW _ j (le_n _) JJ). rewrite FM1, FM2, FM3 in LOW. lra.
Qed.
Print Assumptions C89_convex.

(** ** C90: the error.  [u t x] is any function; the computed values differ from it by no
    more than the error [e0] of the initial and boundary values plus the elapsed time times
    the error [tau] with which [u] satisfies the difference equations. *)
Definition on_grid (u : R -> R -> R) (dt h : R) : nat -> nat -> R := fun i j => u (INR i * dt) (INR j * h).

Theorem C90_error : forall kind lu xDom J tDom N p o ip mem w0 (cf : Conf R) s w k (u : R -> R -> R) e0 tau,
  gridded kind xDom J tDom N ->
  Fdm_ctor kind xDom J tDom N p o ip (Some ThomasAlgorithm) mem w0 = Ok (cf, s) -> evaluates p w k ->
  let n := Z.to_nat J in let m := Z.to_nat (N - 1) in let h := xDom / (IZR J - 1) in let dt := tDom / (IZR N - 1) in
  (forall t, 0 <= t <= tDom -> no_oscillation kind k dt h (nodes xDom J) n t) ->
  0 <= e0 -> 0 <= tau ->
  (forall x a, 0 <= x <= xDom -> initialCondition p w0 x = Ok a -> Rabs (a - u 0 x) <= e0) ->
  (forall i, (i < m)%nat -> Rabs (kl k (read_time kind dt i) 0 - u (INR (i + 1) * dt) 0) <= e0 /\
                            Rabs (kg k (read_time kind dt i) xDom - u (INR (i + 1) * dt) xDom) <= e0) ->
  (forall i j, (i < m)%nat -> (1 <= j <= n - 2)%nat ->
     Rabs (residual kind k dt h (nodes xDom J) (on_grid u dt h) i j + kf k (read_time kind dt i) (node xDom J j)) <= tau) ->
  exists v s', (forall fuel, (m <= fuel)%nat -> solve lu cf w fuel s = Some (Ok v, s')) /\
    forall j, (j < n)%nat -> Rabs (el v j - u tDom (node xDom J j)) <= e0 + tDom * tau.
Proof.
  intros kind lu xDom J tDom N p o ip mem w0 cf s w k u e0 tau (KK & HJ & MX & HN & HX & HT) E EV n m h dt NO HE HTAU IC BC RC.
  destruct (ctor_grid _ _ _ _ _ _ _ _ _ _ _ _ _ HJ HN HX HT E) as (HH & DT & TD & N4 & M1 & XS & GE & X0 & X1 & IV).
  fold h dt n m in HH, DT, TD, N4, M1, XS, GE, X0, X1, IV. change (cX cf = nodes xDom J) in XS.
  assert (ST : forall t, 0 <= t <= tDom -> stable k h (cX cf) n t).
  { intros t T. rewrite XS. eapply no_oscillation_stable. now apply NO. }
  destruct (scheme_run kind lu _ _ _ _ _ _ _ _ _ _ _ w k KK HJ MX HN HX HT E EV (fun _ => ST)) as (v & s' & f & SO & F0 & FM & FL).
  fold h dt n m in SO, FM, FL. rewrite XS in FL. exists v, s'. split; [exact SO|].
  assert (XN : INR (n - 1) * h = xDom) by (rewrite <- (proj1 (GE (n - 1)%nat ltac:(lia))); exact X1).
  assert (N0 : el (nodes xDom J) 0 = 0) by (rewrite <- XS; easy).
  assert (NN : el (nodes xDom J) (n - 1) = xDom) by (rewrite <- XS; easy).
  assert (NE : forall j, (j < n)%nat -> el (nodes xDom J) j = node xDom J j) by (intros j JJ; rewrite <- XS; apply (GE j JJ)).
  assert (KR : forall i j, (i < m)%nat -> (1 <= j <= n - 2)%nat -> kr k (read_time kind dt i) (el (nodes xDom J) j) <= 0).
  { intros i j I JJ. destruct (NO (read_time kind dt i) (read_time_in kind dt m tDom i I DT TD) j JJ) as (_ & B & _). exact B. }
  (* both signs at once *)
  assert (P : forall sg, sg = 1 \/ sg = -1 -> forall i j, (i <= m)%nat -> (j < n)%nat ->
    0 <= (e0 + INR i * dt * tau) - sg * (el (f i) j - on_grid u dt h i j)).
  { intros sg SG. apply (march_positive kind k dt h (nodes xDom J) n m
      (fun i j => (e0 + INR i * dt * tau) - sg * (el (f i) j - on_grid u dt h i j)) KK HH DT); [lia| | | |].
    - intros i I. apply NO. now apply (read_time_in kind dt m).
    - intros j JJ. rewrite F0. unfold on_grid. change (INR 0) with 0. rewrite !Rmult_0_l.
      specialize (IC (el (cX cf) j) _ (proj2 (GE j JJ)) (IV j JJ)). rewrite (proj1 (GE j JJ)) in IC.
      apply Rabs_le_inv in IC. destruct SG as [-> | ->]; lra.
    - intros i I. destruct (layer_residual kind k dt h (nodes xDom J) n i f KK (FL i I)) as (-> & -> & _).
      rewrite N0, NN. unfold on_grid. rewrite XN. change (INR 0) with 0. rewrite Rmult_0_l.
      destruct (BC i I) as [B1 B2]. apply Rabs_le_inv in B1, B2.
      assert (0 <= INR (i + 1) * dt * tau) by (apply Rmult_le_pos; [apply Rmult_le_pos; [apply pos_INR|lra]|easy]).
      destruct SG as [-> | ->]; lra.
    - intros i j I JJ. specialize (RC i j I JJ). specialize (KR i j I JJ).
      pose proof (pos_INR i). pose proof (pos_INR (i + 1)).
      destruct (layer_residual kind k dt h (nodes xDom J) n i f KK (FL i I)) as (_ & _ & RF). specialize (RF j JJ).
      rewrite <- NE in RC by lia. set (F := kf _ _ _) in *. set (U := residual _ _ _ _ _ (on_grid u dt h) _ _) in *.
      set (V := residual _ _ _ _ _ (fun i j => el (f i) j) _ _) in *. set (r := kr _ _ _) in *.
      assert (Q : exists c, 0 <= c /\
        residual kind k dt h (nodes xDom J) (fun i j => (e0 + INR i * dt * tau) - sg * (el (f i) j - on_grid u dt h i j)) i j =
        tau - r * c - sg * (V - U)).
      { destruct KK as [-> | ->].
        - exists (e0 + INR i * dt * tau). split; [apply Rplus_le_le_0_compat; [easy|]; apply Rmult_le_pos; [apply Rmult_le_pos; lra|easy]|].
          unfold V, U, r, residual, space. cbn zeta. rewrite plus_INR. change (INR 1) with 1. field. lra.
        - exists (e0 + INR (i + 1) * dt * tau). split; [apply Rplus_le_le_0_compat; [easy|]; apply Rmult_le_pos; [apply Rmult_le_pos; lra|easy]|].
          unfold V, U, r, residual, space. cbn zeta. rewrite plus_INR. change (INR 1) with 1. field. lra. }
      destruct Q as (c & C0 & ->). rewrite RF. apply Rabs_le_inv in RC.
      assert (0 <= - r * c) by (apply Rmult_le_pos; lra). destruct SG as [-> | ->]; lra. }
  intros j JJ. pose proof (P 1 (or_introl eq_refl) m j (le_n _) JJ) as A. pose proof (P (-1) (or_intror eq_refl) m j (le_n _) JJ) as B.
  rewrite TD, FM in A, B. unfold on_grid in A, B. rewrite TD in A, B. change (INR j * h) with (node xDom J j) in A, B.
  apply Rabs_le. lra.
Qed.
Print Assumptions C90_error.

(** ** C91: order of convergence *)

(** Taylor bounds from the mean value theorem. *)
Lemma growth : forall (g dg : R -> R) b C q, 0 <= b ->
  (forall x, 0 <= x <= b -> is_derive g x (dg x)) -> g 0 = 0 ->
  (forall x, 0 <= x <= b -> Rabs (dg x) <= C * x ^ q) -> Rabs (g b) <= C * b ^ (Datatypes.S q) / INR (Datatypes.S q).
Proof.
  intros g dg b C q HB D G0 B.
  assert (SQ : 0 < INR (Datatypes.S q)) by (apply lt_0_INR; lia).
  assert (DP : forall x, is_derive (fun x => C * x ^ (Datatypes.S q) / INR (Datatypes.S q)) x (C * x ^ q)).
  { intros x. auto_derive; [easy|]. change (Nat.pred (Datatypes.S q)) with q. field. apply Rgt_not_eq. exact SQ. }
  assert (Z0 : C * 0 ^ Datatypes.S q / INR (Datatypes.S q) = 0) by (cbn [pow]; unfold Rdiv; ring).
  assert (W : forall sg, sg = 1 \/ sg = -1 -> sg * g b <= C * b ^ Datatypes.S q / INR (Datatypes.S q)).
  { intros sg SG.
    destruct (MVT_gen (fun x => C * x ^ Datatypes.S q / INR (Datatypes.S q) - sg * g x) 0 b (fun x => C * x ^ q - sg * dg x)) as (c & (C1 & C2) & EQ).
    - intros x. rewrite Rmin_left, Rmax_right by easy. intros X.
      apply (is_derive_minus (fun x => C * x ^ Datatypes.S q / INR (Datatypes.S q)) (fun x => sg * g x)); [apply DP|].
      apply is_derive_scal. apply D. lra.
    - intros x. rewrite Rmin_left, Rmax_right by easy. intros X. apply continuity_pt_minus.
      + apply continuity_pt_filterlim. apply (ex_derive_continuous (fun x => C * x ^ Datatypes.S q / INR (Datatypes.S q))). eexists. apply DP.
      + apply continuity_pt_scal. apply continuity_pt_filterlim. apply (ex_derive_continuous g). eexists. now apply D.
    - rewrite Rmin_left in C1 by easy. rewrite Rmax_right in C2 by easy. cbn beta in EQ. rewrite G0, Z0, Rmult_0_r in EQ.
      specialize (B c ltac:(lra)). apply Rabs_le_inv in B.
      assert (0 <= C * c ^ q - sg * dg c) by (destruct SG as [-> | ->]; lra).
      assert (0 <= (C * c ^ q - sg * dg c) * (b - 0)) by (apply Rmult_le_pos; lra). lra. }
  pose proof (W 1 (or_introl eq_refl)). pose proof (W (-1) (or_intror eq_refl)). apply Rabs_le. lra.
Qed.

Lemma taylor0 : forall (g dg : R -> R) b M, (forall x, 0 <= x <= b -> is_derive g x (dg x)) -> (forall x, 0 <= x <= b -> Rabs (dg x) <= M) ->
  forall s, 0 <= s <= b -> Rabs (g s - g 0) <= M * s.
Proof.
  intros g dg b M DG B s SB.
  pose proof (growth (fun x => g x - g 0) dg s M 0) as G. replace (M * s ^ 1 / INR 1) with (M * s) in G by (cbn; field).
  apply G; [easy| |ring|].
  - intros x X. replace (dg x) with (minus (dg x) 0) by (unfold minus, plus, opp; cbn; ring).
    apply (is_derive_minus g (fun _ => g 0)); [apply DG; lra|apply (is_derive_const (g 0))].
  - intros x X. cbn [pow]. rewrite Rmult_1_r. apply B. lra.
Qed.

Lemma taylor1 : forall (f f1 f2 : R -> R) b M,
  (forall x, 0 <= x <= b -> is_derive f x (f1 x)) -> (forall x, 0 <= x <= b -> is_derive f1 x (f2 x)) ->
  (forall x, 0 <= x <= b -> Rabs (f2 x) <= M) ->
  forall s, 0 <= s <= b -> Rabs (f s - (f 0 + s * f1 0)) <= M * s ^ 2 / 2.
Proof.
  intros f f1 f2 b M D1 D2 B s SB.
  pose proof (growth (fun x => f x - (f 0 + x * f1 0)) (fun x => f1 x - f1 0) s M 1) as G.
  replace (INR 2) with 2 in G by (cbn; ring). apply G; [easy| |ring|].
  - intros x X. apply (is_derive_minus f (fun x => f 0 + x * f1 0)); [apply D1; lra|]. auto_derive; [easy|ring].
  - intros x X. rewrite pow_1. apply (taylor0 f1 f2 b M D2 B). lra.
Qed.

Lemma taylor2 : forall (f f1 f2 f3 : R -> R) b M,
  (forall x, 0 <= x <= b -> is_derive f x (f1 x)) -> (forall x, 0 <= x <= b -> is_derive f1 x (f2 x)) ->
  (forall x, 0 <= x <= b -> is_derive f2 x (f3 x)) -> (forall x, 0 <= x <= b -> Rabs (f3 x) <= M) ->
  forall s, 0 <= s <= b -> Rabs (f s - (f 0 + s * f1 0 + s ^ 2 / 2 * f2 0)) <= M * s ^ 3 / 6.
Proof.
  intros f f1 f2 f3 b M D1 D2 D3 B s SB.
  pose proof (growth (fun x => f x - (f 0 + x * f1 0 + x ^ 2 / 2 * f2 0)) (fun x => f1 x - (f1 0 + x * f2 0)) s (M / 2) 2) as G.
  replace (INR 3) with 3 in G by (cbn; ring). replace (M / 2 * s ^ 3 / 3) with (M * s ^ 3 / 6) in G by field. apply G; [easy| |field|].
  - intros x X. apply (is_derive_minus f (fun x => f 0 + x * f1 0 + x ^ 2 / 2 * f2 0)); [apply D1; lra|]. auto_derive; [easy|field].
  - intros x X. replace (M / 2 * x ^ 2) with (M * x ^ 2 / 2) by field. apply (taylor1 f1 f2 f3 b M D2 D3 B). lra.
Qed.

Lemma taylor3 : forall (f f1 f2 f3 f4 : R -> R) b M,
  (forall x, 0 <= x <= b -> is_derive f x (f1 x)) -> (forall x, 0 <= x <= b -> is_derive f1 x (f2 x)) ->
  (forall x, 0 <= x <= b -> is_derive f2 x (f3 x)) -> (forall x, 0 <= x <= b -> is_derive f3 x (f4 x)) ->
  (forall x, 0 <= x <= b -> Rabs (f4 x) <= M) ->
  forall s, 0 <= s <= b -> Rabs (f s - (f 0 + s * f1 0 + s ^ 2 / 2 * f2 0 + s ^ 3 / 6 * f3 0)) <= M * s ^ 4 / 24.
Proof.
  intros f f1 f2 f3 f4 b M D1 D2 D3 D4 B s SB.
  pose proof (growth (fun x => f x - (f 0 + x * f1 0 + x ^ 2 / 2 * f2 0 + x ^ 3 / 6 * f3 0)) (fun x => f1 x - (f1 0 + x * f2 0 + x ^ 2 / 2 * f3 0)) s (M / 6) 3) as G.
  replace (INR 4) with 4 in G by (cbn; ring). replace (M / 6 * s ^ 4 / 4) with (M * s ^ 4 / 24) in G by field. apply G; [easy| |field|].
  - intros x X. apply (is_derive_minus f (fun x => f 0 + x * f1 0 + x ^ 2 / 2 * f2 0 + x ^ 3 / 6 * f3 0)); [apply D1; lra|]. auto_derive; [easy|field].
  - intros x X. replace (M / 6 * x ^ 3) with (M * x ^ 3 / 6) by field. apply (taylor2 f1 f2 f3 f4 b M D2 D3 D4 B). lra.
Qed.

(** Moving away from [a] to the right or to the left. *)
Lemma shift : forall (f f' : R -> R) a sg x, is_derive f (a + sg * x) (f' (a + sg * x)) -> is_derive (fun x => f (a + sg * x)) x (sg * f' (a + sg * x)).
Proof.
  intros f f' a sg x D. assert (A : is_derive (fun x => a + sg * x) x sg) by (auto_derive; [easy|ring]).
  exact (is_derive_comp f (fun x => a + sg * x) x (f' (a + sg * x)) sg D A).
Qed.

(** Central differences of a smooth function. *)
Lemma central : forall (f f1 f2 f3 f4 : R -> R) x h M3 M4, 0 < h ->
  (forall y, x - h <= y <= x + h -> is_derive f y (f1 y) /\ is_derive f1 y (f2 y) /\ is_derive f2 y (f3 y) /\ is_derive f3 y (f4 y) /\
     Rabs (f3 y) <= M3 /\ Rabs (f4 y) <= M4) ->
  Rabs ((f (x + h) - f (x - h)) / (2 * h) - f1 x) <= M3 * h ^ 2 / 6 /\
  Rabs ((f (x + h) - 2 * f x + f (x - h)) / (h * h) - f2 x) <= M4 * h ^ 2 / 12.
Proof.
  intros f f1 f2 f3 f4 x h M3 M4 HH S.
  assert (T : forall sg, sg = 1 \/ sg = -1 ->
    Rabs (f (x + sg * h) - (f x + h * (sg * f1 x) + h ^ 2 / 2 * f2 x)) <= M3 * h ^ 3 / 6 /\
    Rabs (f (x + sg * h) - (f x + h * (sg * f1 x) + h ^ 2 / 2 * f2 x + h ^ 3 / 6 * (sg * f3 x))) <= M4 * h ^ 4 / 24).
  { intros sg SG. assert (IN : forall y, 0 <= y <= h -> x - h <= x + sg * y <= x + h) by (intros; destruct SG as [-> | ->]; lra).
    assert (Q : sg * sg = 1) by (destruct SG as [-> | ->]; ring).
    assert (A1 : forall y, 0 <= y <= h -> is_derive (fun y => f (x + sg * y)) y (sg * f1 (x + sg * y))) by (intros y Y; apply shift; apply S; auto).
    assert (A2 : forall y, 0 <= y <= h -> is_derive (fun y => sg * f1 (x + sg * y)) y (f2 (x + sg * y))).
    { intros y Y. replace (f2 (x + sg * y)) with (sg * (sg * f2 (x + sg * y))) by (rewrite <- Rmult_assoc, Q; ring).
      apply is_derive_scal. apply shift. apply S; auto. }
    assert (A3 : forall y, 0 <= y <= h -> is_derive (fun y => f2 (x + sg * y)) y (sg * f3 (x + sg * y))) by (intros y Y; apply shift; apply S; auto).
    assert (A4 : forall y, 0 <= y <= h -> is_derive (fun y => sg * f3 (x + sg * y)) y (f4 (x + sg * y))).
    { intros y Y. replace (f4 (x + sg * y)) with (sg * (sg * f4 (x + sg * y))) by (rewrite <- Rmult_assoc, Q; ring).
      apply is_derive_scal. apply shift. apply S; auto. }
    assert (B3 : forall y, 0 <= y <= h -> Rabs (sg * f3 (x + sg * y)) <= M3).
    { intros y Y. rewrite Rabs_mult. replace (Rabs sg) with 1 by (destruct SG as [-> | ->]; [now rewrite Rabs_R1|change (-1) with (- (1)); now rewrite Rabs_Ropp, Rabs_R1]).
      rewrite Rmult_1_l. apply S; auto. }
    assert (B4 : forall y, 0 <= y <= h -> Rabs (f4 (x + sg * y)) <= M4) by (intros y Y; apply S; auto).
    pose proof (taylor2 _ _ _ _ h M3 A1 A2 A3 B3 h ltac:(lra)) as T2.
    pose proof (taylor3 _ _ _ _ _ h M4 A1 A2 A3 A4 B4 h ltac:(lra)) as T3.
    cbn beta in T2, T3. rewrite Rmult_0_r, Rplus_0_r in T2, T3. auto. }
  destruct (T 1 (or_introl eq_refl)) as [R2 R3]. destruct (T (-1) (or_intror eq_refl)) as [L2 L3].
  rewrite Rmult_1_l in R2, R3. replace (x + -1 * h) with (x - h) in L2, L3 by ring.
  apply Rabs_le_inv in R2, R3, L2, L3. split.
  - assert (Q : Rabs ((f (x + h) - f (x - h)) - 2 * h * f1 x) <= 2 * (M3 * h ^ 3 / 6)) by (apply Rabs_le; lra).
    replace ((f (x + h) - f (x - h)) / (2 * h) - f1 x) with (((f (x + h) - f (x - h)) - 2 * h * f1 x) / (2 * h)) by (field; lra).
    unfold Rdiv at 1. rewrite Rabs_mult, (Rabs_pos_eq (/ (2 * h))) by (apply Rlt_le, Rinv_0_lt_compat; lra).
    apply (Rmult_le_compat_r (/ (2 * h))) in Q; [|apply Rlt_le, Rinv_0_lt_compat; lra].
    eapply Rle_trans; [exact Q|]. apply Req_le. field. lra.
  - assert (Q : Rabs ((f (x + h) - 2 * f x + f (x - h)) - h * h * f2 x) <= 2 * (M4 * h ^ 4 / 24)) by (apply Rabs_le; lra).
    replace ((f (x + h) - 2 * f x + f (x - h)) / (h * h) - f2 x) with (((f (x + h) - 2 * f x + f (x - h)) - h * h * f2 x) / (h * h)) by (field; lra).
    assert (0 < h * h) by nra.
    unfold Rdiv at 1. rewrite Rabs_mult, (Rabs_pos_eq (/ (h * h))) by (apply Rlt_le, Rinv_0_lt_compat; lra).
    apply (Rmult_le_compat_r (/ (h * h))) in Q; [|apply Rlt_le, Rinv_0_lt_compat; lra].
    eapply Rle_trans; [exact Q|]. apply Req_le. field. lra.
Qed.

(** One-sided time differences, forwards and backwards. *)
Lemma time_difference : forall (f f1 f2 : R -> R) a b M, a < b ->
  (forall t, a <= t <= b -> is_derive f t (f1 t) /\ is_derive f1 t (f2 t) /\ Rabs (f2 t) <= M) ->
  Rabs ((f b - f a) / (b - a) - f1 a) <= M * (b - a) / 2 /\ Rabs ((f b - f a) / (b - a) - f1 b) <= M * (b - a) / 2.
Proof.
  intros f f1 f2 a b M AB S. set (h := b - a). assert (HH : 0 < h) by (unfold h; lra).
  assert (T : forall c sg, (c = a /\ sg = 1) \/ (c = b /\ sg = -1) -> Rabs (f (c + sg * h) - (f c + h * (sg * f1 c))) <= M * h ^ 2 / 2).
  { intros c sg SG. assert (IN : forall y, 0 <= y <= h -> a <= c + sg * y <= b) by (unfold h; intros; destruct SG as [[-> ->]|[-> ->]]; lra).
    assert (Q : sg * sg = 1) by (destruct SG as [[-> ->]|[-> ->]]; ring).
    assert (A1 : forall y, 0 <= y <= h -> is_derive (fun y => f (c + sg * y)) y (sg * f1 (c + sg * y))) by (intros y Y; apply shift; apply S; auto).
    assert (A2 : forall y, 0 <= y <= h -> is_derive (fun y => sg * f1 (c + sg * y)) y (f2 (c + sg * y))).
    { intros y Y. replace (f2 (c + sg * y)) with (sg * (sg * f2 (c + sg * y))) by (rewrite <- Rmult_assoc, Q; ring).
      apply is_derive_scal. apply shift. apply S; auto. }
    assert (B2 : forall y, 0 <= y <= h -> Rabs (f2 (c + sg * y)) <= M) by (intros y Y; apply S; auto).
    pose proof (taylor1 _ _ _ h M A1 A2 B2 h ltac:(lra)) as T1.
    cbn beta in T1. rewrite Rmult_0_r, Rplus_0_r in T1. auto. }
  pose proof (T a 1 (or_introl (conj eq_refl eq_refl))) as TA. pose proof (T b (-1) (or_intror (conj eq_refl eq_refl))) as TB.
  replace (a + 1 * h) with b in TA by (unfold h; ring). replace (b + -1 * h) with a in TB by (unfold h; ring).
  apply Rabs_le_inv in TA, TB.
  assert (QQ : forall z, Rabs ((f b - f a) - h * z) <= M * h ^ 2 / 2 -> Rabs ((f b - f a) / h - z) <= M * h / 2).
  { intros z Q. replace ((f b - f a) / h - z) with (((f b - f a) - h * z) / h) by (field; lra).
    unfold Rdiv at 1. rewrite Rabs_mult, (Rabs_pos_eq (/ h)) by (apply Rlt_le, Rinv_0_lt_compat; lra).
    apply (Rmult_le_compat_r (/ h)) in Q; [|apply Rlt_le, Rinv_0_lt_compat; lra].
    eapply Rle_trans; [exact Q|]. apply Req_le. field. lra. }
  split; apply QQ; apply Rabs_le; lra.
Qed.

(** A smooth solution of the equation and its boundary conditions, with bounds on its
    derivatives and on the coefficients over the rectangle. *)
Definition smooth_solution (k : Coefs R) (tDom xDom : R) (u ut utt ux uxx uxxx uxxxx : R -> R -> R) (M1 M2 M3 M4 Dm Cm : R) : Prop :=
  forall t x, 0 <= t <= tDom -> 0 <= x <= xDom ->
    is_derive (fun t => u t x) t (ut t x) /\ is_derive (fun t => ut t x) t (utt t x) /\
    is_derive (u t) x (ux t x) /\ is_derive (ux t) x (uxx t x) /\ is_derive (uxx t) x (uxxx t x) /\ is_derive (uxxx t) x (uxxxx t x) /\
    Rabs (ut t x) <= M1 /\ Rabs (utt t x) <= M2 /\ Rabs (uxxx t x) <= M3 /\ Rabs (uxxxx t x) <= M4 /\
    Rabs (kd k t x) <= Dm /\ Rabs (kc k t x) <= Cm /\
    ut t x = kd k t x * uxx t x + kc k t x * ux t x + kr k t x * u t x - kf k t x /\
    kl k t 0 = u t 0 /\ kg k t xDom = u t xDom.

(** First order in time, second order in space. *)
Theorem C91_order : forall kind lu xDom J tDom N p o ip mem w0 (cf : Conf R) s w k u ut utt ux uxx uxxx uxxxx M1 M2 M3 M4 Dm Cm,
  gridded kind xDom J tDom N ->
  Fdm_ctor kind xDom J tDom N p o ip (Some ThomasAlgorithm) mem w0 = Ok (cf, s) -> evaluates p w k ->
  smooth_solution k tDom xDom u ut utt ux uxx uxxx uxxxx M1 M2 M3 M4 Dm Cm ->
  (forall x a, 0 <= x <= xDom -> initialCondition p w0 x = Ok a -> a = u 0 x) ->
  let n := Z.to_nat J in let h := xDom / (IZR J - 1) in let dt := tDom / (IZR N - 1) in
  (forall t, 0 <= t <= tDom -> no_oscillation kind k dt h (nodes xDom J) n t) ->
  exists v s', (forall fuel, (Z.to_nat (N - 1) <= fuel)%nat -> solve lu cf w fuel s = Some (Ok v, s')) /\
    forall j, (j < n)%nat -> Rabs (el v j - u tDom (node xDom J j)) <=
      dt * (match kind with KExplicit => M1 | _ => 0 end + tDom * M2 / 2) + h * h * (tDom * (Dm * M4 / 12 + Cm * M3 / 6)).
Proof.
  intros kind lu xDom J tDom N p o ip mem w0 cf s w k u ut utt ux uxx uxxx uxxxx M1 M2 M3 M4 Dm Cm G E EV SS IC n h dt NO.
  pose proof G as (KK & HJ & MX & HN & HX & HT).
  destruct (ctor_grid _ _ _ _ _ _ _ _ _ _ _ _ _ HJ HN HX HT E) as (HH & DT & TD & N4 & M1' & XS & GE & X0 & X1 & IV).
  fold h dt n in HH, DT, TD, N4, XS, GE, X0, X1, IV. set (m := Z.to_nat (N - 1)) in *. change (cX cf = nodes xDom J) in XS.
  assert (POS : 0 <= M1 /\ 0 <= M2 /\ 0 <= M3 /\ 0 <= M4 /\ 0 <= Dm /\ 0 <= Cm).
  { destruct (SS 0 0) as (_ & _ & _ & _ & _ & _ & A1 & A2 & A3 & A4 & A5 & A6 & _); try lra.
    repeat split; eapply Rle_trans; try apply Rabs_pos; eauto. }
  destruct POS as (P1 & P2 & P3 & P4 & PD & PC).
  set (tau := dt * M2 / 2 + h * h * (Dm * M4 / 12 + Cm * M3 / 6)).
  set (e0 := match kind with KExplicit => dt * M1 | _ => 0 end).
  assert (HTAU : 0 <= tau).
  { unfold tau. apply Rplus_le_le_0_compat; [apply Rdiv_le_0_compat; [apply Rmult_le_pos; lra|lra]|].
    apply Rmult_le_pos; [nra|]. apply Rplus_le_le_0_compat; (apply Rdiv_le_0_compat; [apply Rmult_le_pos; easy|lra]). }
  assert (HE : 0 <= e0) by (unfold e0; destruct kind; [apply Rmult_le_pos; lra|lra|lra]).
  assert (TIN : forall i, (i <= m)%nat -> 0 <= INR i * dt <= tDom).
  { intros i I. apply le_INR in I. pose proof (pos_INR i). rewrite <- TD. split; nra. }
  assert (NEXT : forall i, INR (i + 1) * dt = INR i * dt + dt) by (intros i; rewrite plus_INR; change (INR 1) with 1; ring).
  destruct (C90_error kind lu xDom J tDom N p o ip mem w0 cf s w k u e0 tau G E EV NO HE HTAU) as (v & s' & SO & ER).
  - intros x a X I. rewrite (IC x a X I), Rminus_eq_0, Rabs_R0. easy.
  - intros i I. fold m in I. fold dt.
    assert (BX : forall x, 0 <= x <= xDom -> Rabs (u (read_time kind dt i) x - u (INR (i + 1) * dt) x) <= e0).
    { intros x X. unfold e0. destruct KK as [-> | ->]; cbn [read_time]; [|rewrite Rminus_eq_0, Rabs_R0; lra].
      pose proof (TIN i ltac:(lia)) as TA. pose proof (TIN (i + 1)%nat ltac:(lia)) as TB. rewrite NEXT in TB |- *.
      set (t := INR i * dt) in *.
      destruct (MVT_gen (fun t => u t x) t (t + dt) (fun t => ut t x)) as (c & (C1 & C2) & EQ).
      - intros y. rewrite Rmin_left, Rmax_right by lra. intros Y. destruct (SS y x) as (A & _); [lra|lra|exact A].
      - intros y. rewrite Rmin_left, Rmax_right by lra. intros Y. apply continuity_pt_filterlim.
        apply (ex_derive_continuous (fun t => u t x)). exists (ut y x). destruct (SS y x) as (A & _); [lra|lra|exact A].
      - rewrite Rmin_left in C1 by lra. rewrite Rmax_right in C2 by lra. cbn beta in EQ.
        rewrite Rabs_minus_sym, EQ, Rabs_mult. replace (t + dt - t) with dt by ring. rewrite (Rabs_pos_eq dt) by lra.
        rewrite Rmult_comm. apply Rmult_le_compat_l; [lra|]. destruct (SS c x) as (_ & _ & _ & _ & _ & _ & A & _); [lra|lra|exact A]. }
    assert (RT : 0 <= read_time kind dt i <= tDom) by (apply (read_time_in kind dt m); auto).
    destruct (SS (read_time kind dt i) 0 RT ltac:(lra)) as (_ & _ & _ & _ & _ & _ & _ & _ & _ & _ & _ & _ & _ & KL & KG).
    rewrite KL, KG. split; apply BX; lra.
  - intros i j I JJ. fold n in JJ. fold m in I. fold h dt.
    assert (NX : forall q, INR (j + q) * h = INR j * h + INR q * h) by (intros q; rewrite plus_INR; ring).
    assert (NE : el (nodes xDom J) j = node xDom J j) by (rewrite <- XS; apply GE; lia).
    set (x := INR j * h). assert (XE : node xDom J j = x) by reflexivity.
    assert (XM : INR (j - 1) * h = x - h) by (unfold x; rewrite minus_INR by lia; change (INR 1) with 1; ring).
    assert (XP : INR (j + 1) * h = x + h) by (unfold x; rewrite plus_INR; change (INR 1) with 1; ring).
    assert (XR : 0 <= x - h /\ x + h <= xDom).
    { rewrite <- XM, <- XP. destruct (GE (j - 1)%nat ltac:(lia)) as (A & B). destruct (GE (j + 1)%nat ltac:(lia)) as (A' & B').
      rewrite A in B. rewrite A' in B'. lra. }
    pose proof (TIN i ltac:(lia)) as TA. pose proof (TIN (i + 1)%nat ltac:(lia)) as TB.
    assert (TAB : INR i * dt < INR (i + 1) * dt) by (rewrite NEXT; lra).
    assert (RT : 0 <= read_time kind dt i <= tDom) by (apply (read_time_in kind dt m); auto).
    set (t := read_time kind dt i) in *.
    destruct (time_difference (fun t => u t x) (fun t => ut t x) (fun t => utt t x) _ _ M2 TAB) as [FW BW].
    { intros y Y. destruct (SS y x) as (A1 & A2 & _ & _ & _ & _ & _ & A3 & _); [lra|lra|]. exact (conj A1 (conj A2 A3)). }
    destruct (central (u t) (ux t) (uxx t) (uxxx t) (uxxxx t) x h M3 M4 HH) as [CF CS].
    { intros y Y. destruct (SS t y) as (_ & _ & B1 & B2 & B3 & B4 & _ & _ & A3 & A4 & _); [lra|lra|]. exact (conj B1 (conj B2 (conj B3 (conj B4 (conj A3 A4))))). }
    destruct (SS t x) as (_ & _ & _ & _ & _ & _ & _ & _ & _ & _ & DB & CB & PDE & _); [easy|lra|].
    assert (TE : Rabs ((u (INR (i + 1) * dt) x - u (INR i * dt) x) / dt - ut t x) <= M2 * dt / 2).
    { replace (INR (i + 1) * dt - INR i * dt) with dt in FW, BW by (rewrite NEXT; ring).
      unfold t. destruct KK as [-> | ->]; cbn [read_time]; assumption. }
    rewrite XE.
    assert (RE : residual kind k dt h (nodes xDom J) (on_grid u dt h) i j + kf k t x =
      ((u (INR (i + 1) * dt) x - u (INR i * dt) x) / dt - ut t x) -
      kd k t x * ((u t (x + h) - 2 * u t x + u t (x - h)) / (h * h) - uxx t x) -
      kc k t x * ((u t (x + h) - u t (x - h)) / (2 * h) - ux t x)).
    { rewrite PDE. unfold residual, space, on_grid. rewrite NE, XE, XM, XP. fold x.
      replace (INR (match kind with KExplicit => i | _ => (i + 1)%nat end) * dt) with t by (unfold t; destruct kind; reflexivity).
      fold t. ring. }
    rewrite RE. set (A := _ / dt - ut t x) in *. set (B := _ / (h * h) - uxx t x) in *. set (C := _ / (2 * h) - ux t x) in *.
    assert (T1 : Rabs (kd k t x * B) <= Dm * (M4 * h ^ 2 / 12)) by (rewrite Rabs_mult; apply Rmult_le_compat; auto using Rabs_pos).
    assert (T2 : Rabs (kc k t x * C) <= Cm * (M3 * h ^ 2 / 6)) by (rewrite Rabs_mult; apply Rmult_le_compat; auto using Rabs_pos).
    apply Rabs_le_inv in T1, T2, TE. unfold tau. apply Rabs_le. lra.
  - exists v, s'. split; [exact SO|]. intros j JJ. eapply Rle_trans; [apply ER; easy|].
    apply Req_le. unfold e0, tau. destruct KK as [-> | ->]; field.
Qed.
Print Assumptions C91_order.

(** ** C92: a call with strike 0 is the stock, worth x exp(-cT) today. *)

(** Without dividends it is priced exactly, at every node, after any number of steps; for
    the explicit scheme without any condition on the steps. *)
Theorem C92_zero_strike_partial : forall kind lu xDom J tDom N o cf s w d,
  gridded kind xDom J tDom N -> vanilla_solver kind xDom J tDom N Call 0 o cf s ->
  read (optTicker o) w = Ok d -> dividend d = 0 ->
  (kind = KImplicit -> calm kind J tDom N (sigma_ d) (mR w) 0) ->
  exists v s', (forall fuel, (Z.to_nat (N - 1) <= fuel)%nat -> solve lu cf w fuel s = Some (Ok v, s')) /\
    cX cf = nodes xDom J /\ forall j, (j < Z.to_nat J)%nat -> el v j = node xDom J j.
Proof.
  intros kind lu xDom J tDom N o cf s w d G V RD D0 CA. rewrite <- D0 in CA.
  destruct (vanilla_layers kind lu xDom J tDom N Call 0 o cf s w d G V RD CA) as (XS & v & s' & f & SO & FM & I0 & L).
  exists v, s'. split; [exact SO|]. split; [exact XS|].
  pose proof G as (KK & HJ & MX & HN & HX & HT).
  assert (PN : 0 < IZR N - 1) by (assert (2 <= IZR N) by (apply IZR_le; lia); lra).
  assert (PJ : 0 < IZR J - 1) by (assert (4 <= IZR J) by (apply IZR_le; lia); lra).
  set (dt := tDom / (IZR N - 1)) in *. set (h := xDom / (IZR J - 1)) in *.
  assert (DT : 0 < dt) by (now apply Rdiv_lt_0_compat). assert (HH : 0 < h) by (now apply Rdiv_lt_0_compat).
  set (n := Z.to_nat J) in *. set (m := Z.to_nat (N - 1)) in *. set (op := bs_operator (sigma_ d) (mR w) (dividend d)) in *.
  assert (ND : forall j, node xDom J j = INR j * h) by reflexivity.
  assert (NE : forall j, (j < n)%nat -> el (nodes xDom J) j = node xDom J j).
  { intros j JJ. unfold nodes, el. now rewrite nth_map_seq. }
  assert (XN : node xDom J (n - 1) = xDom).
  { rewrite ND, minus_INR by lia. unfold n. rewrite INR_IZR_INZ, Z2Nat.id by lia. change (INR 1) with 1. unfold h. field. lra. }
  assert (START : forall j, (j < n)%nat -> el (f 0%nat) j = node xDom J j).
  { intros j JJ. rewrite I0 by easy. cbn [exercise]. rewrite Rminus_0_r. apply Rmax_left. rewrite ND. pose proof (pos_INR j). nra. }
  assert (ENDS : forall i, (i < m)%nat -> el (f (i + 1)%nat) 0 = node xDom J 0 /\ el (f (i + 1)%nat) (n - 1) = node xDom J (n - 1)).
  { intros i I. destruct (L i I) as (_ & -> & -> & _). cbn [kl kg bs_coefs]. rewrite XN, ND. change (INR 0) with 0. lra. }
  assert (LIN : forall i j, (1 <= j <= n - 2)%nat -> residual kind op dt h (nodes xDom J) (fun _ j => node xDom J j) i j = 0).
  { intros i j JJ. unfold residual, space. rewrite NE by lia. rewrite !ND, plus_INR, minus_INR by lia. change (INR 1) with 1.
    unfold op, bs_operator. cbn [kd kc kr bs_coefs]. rewrite D0. destruct kind; cbn zeta; field; lra. }
  assert (ALL : forall i j, (i <= m)%nat -> (j < n)%nat -> el (f i) j = node xDom J j).
  { destruct KK as [-> | ->].
    - induction i as [|i IH]; intros j I JJ; [now apply START|]. replace (Datatypes.S i) with (i + 1)%nat by lia.
      destruct (ENDS i ltac:(lia)) as [EL ER].
      destruct (Nat.eq_dec j 0) as [-> |J0]; [easy|]. destruct (Nat.eq_dec j (n - 1)) as [-> |J1]; [easy|].
      destruct (L i ltac:(lia)) as (_ & _ & _ & RS). specialize (RS j ltac:(lia)). specialize (LIN i j ltac:(lia)).
      unfold residual in RS, LIN. rewrite !IH in RS by lia. cbn zeta in RS, LIN.
      assert (Q : (el (f (i + 1)%nat) j - node xDom J j) / dt = (node xDom J j - node xDom J j) / dt) by lra.
      rewrite Rminus_eq_0 in Q. unfold Rdiv in Q. rewrite Rmult_0_l in Q. apply Rmult_integral in Q.
      destruct Q as [Q|Q]; [lra|]. exfalso. apply (Rinv_neq_0_compat dt); lra.
    - intros i j I JJ. specialize (CA eq_refl).
      assert (P : forall sg, sg = 1 \/ sg = -1 -> 0 <= sg * (el (f i) j - node xDom J j)).
      { intros sg SG. revert i j I JJ. apply (march_positive KImplicit op dt h (nodes xDom J) n m (fun i j => sg * (el (f i) j - node xDom J j)) (or_intror eq_refl) HH DT); [lia| | | |].
        - intros i I. now apply bs_no_oscillation.
        - intros j JJ. rewrite START by easy. lra.
        - intros i I. destruct (ENDS i I) as [-> ->]. lra.
        - intros i j I JJ. replace (residual _ _ _ _ _ _ i j) with
            (sg * (residual KImplicit op dt h (nodes xDom J) (fun i j => el (f i) j) i j - residual KImplicit op dt h (nodes xDom J) (fun _ j => node xDom J j) i j))
            by (unfold residual, space; cbn zeta; unfold Rdiv; ring).
          rewrite LIN by easy. destruct (L i I) as (_ & _ & _ & RS). rewrite (RS j JJ). lra. }
      pose proof (P 1 (or_introl eq_refl)). pose proof (P (-1) (or_intror eq_refl)). lra. }
  intros j JJ. rewrite <- FM. now apply ALL.
Qed.
Print Assumptions C92_zero_strike_partial.

(** With a dividend yield it is not: at the right end the value is x whatever the yield. *)
Theorem C92_refuted : forall lu mem, exists o w d cf s v s',
  gridded KExplicit 4 5 1 10 /\ calm KExplicit 5 1 10 (sigma_ d) (mR w) (dividend d) /\
  vanilla_solver KExplicit 4 5 1 10 Call 0 o cf s /\ read (optTicker o) w = Ok d /\ optT o = 1 /\ 0 < dividend d /\
  Fdm_ctor KExplicit 4 5 1 10 (BlackScholesPDE o) o None (Some ThomasAlgorithm) mem w = Ok (cf, s) /\
  (forall fuel, (9 <= fuel)%nat -> solve lu cf w fuel s = Some (Ok v, s')) /\
  el v 4 <> node 4 5 4 * exp (- dividend d * optT o).
Proof.
  intros lu mem. set (o := o_bs Call 0 1). set (w := mkMarket 0 [("A"%string, 0%nat)] [] [mkStock 1 1 (Some (1 / 2))] [] : Market R).
  set (d := mkStock 1 1 (Some (1 / 2)) : StockData R).
  destruct (ctor_total _ _ KExplicit 4 5 1 10 (BlackScholesPDE o) o None (Some ThomasAlgorithm) mem w (initial_total Call 0 1 w) ltac:(lia)) as (cf & s & E).
  assert (G : gridded KExplicit 4 5 1 10) by (split; [auto|]; unfold ULONG_MOD, INT_MAX; repeat split; first [lia|lra]).
  assert (VS : vanilla_solver KExplicit 4 5 1 10 Call 0 o cf s) by (split; [now left|]; split; [reflexivity|]; eauto).
  assert (RD : read (optTicker o) w = Ok d) by reflexivity.
  assert (CA : calm KExplicit 5 1 10 (sigma_ d) (mR w) (dividend d)).
  { split; [cbn; replace (0 - 1 / 2) with (- (1 / 2)) by ring; rewrite Rabs_Ropp, Rabs_pos_eq; lra|]. split; [cbn; lra|]. intros _. cbn. lra. }
  destruct (vanilla_layers KExplicit lu 4 5 1 10 Call 0 o cf s w d G VS RD (fun _ => CA)) as (_ & v & s' & f & SO & FM & _ & L).
  exists o, w, d, cf, s, v, s'. do 5 (split; [assumption || reflexivity|]). split; [cbn; lra|]. split; [exact E|]. split; [exact SO|].
  destruct (L 8%nat ltac:(cbn; lia)) as (_ & _ & R & _). change (8 + 1)%nat with (Z.to_nat (10 - 1)) in R. change (Z.to_nat 5 - 1)%nat with 4%nat in R.
  rewrite FM in R. rewrite R. unfold node. replace (INR 4) with 4 by (cbn; ring). cbn [kg bs_coefs dividend d c_ optT o o_bs].
  rewrite Rmult_0_l, Rminus_0_r. replace (4 * (4 / (5 - 1))) with 4 by field.
  assert (B : exp (- (1 / 2) * 1) < exp 0) by (apply exp_increasing; lra). rewrite exp_0 in B. lra.
Qed.
Print Assumptions C92_refuted.

(** ** Cases that meet the hypotheses *)

(** C89, both schemes: puts struck at 1, 2 and 3 on a grid of five nodes. *)
Example C89_ex : forall kind lu mem, kind = KExplicit \/ kind = KImplicit ->
  let w := w_bs 1 1 0 in
  exists cf1 s1 cf2 s2 cf3 s3 v1 v2 v3 s1' s2' s3',
    Fdm_ctor kind 4 5 1 10 (BlackScholesPDE (o_bs Put 1 1)) (o_bs Put 1 1) None (Some ThomasAlgorithm) mem w = Ok (cf1, s1) /\
    Fdm_ctor kind 4 5 1 10 (BlackScholesPDE (o_bs Put 2 1)) (o_bs Put 2 1) None (Some ThomasAlgorithm) mem w = Ok (cf2, s2) /\
    Fdm_ctor kind 4 5 1 10 (BlackScholesPDE (o_bs Put 3 1)) (o_bs Put 3 1) None (Some ThomasAlgorithm) mem w = Ok (cf3, s3) /\
    solve lu cf1 w 9 s1 = Some (Ok v1, s1') /\ solve lu cf2 w 9 s2 = Some (Ok v2, s2') /\ solve lu cf3 w 9 s3 = Some (Ok v3, s3') /\
    forall j, (j < 5)%nat -> el v1 j <= el v2 j <= el v1 j + 1 /\ 2 * el v2 j <= el v1 j + el v3 j.
Proof.
  intros kind lu mem KK w.
  destruct (ctor_total _ _ kind 4 5 1 10 (BlackScholesPDE (o_bs Put 1 1)) (o_bs Put 1 1) None (Some ThomasAlgorithm) mem w (initial_total Put 1 1 w) ltac:(lia)) as (cf1 & s1 & E1).
  destruct (ctor_total _ _ kind 4 5 1 10 (BlackScholesPDE (o_bs Put 2 1)) (o_bs Put 2 1) None (Some ThomasAlgorithm) mem w (initial_total Put 2 1 w) ltac:(lia)) as (cf2 & s2 & E2).
  destruct (ctor_total _ _ kind 4 5 1 10 (BlackScholesPDE (o_bs Put 3 1)) (o_bs Put 3 1) None (Some ThomasAlgorithm) mem w (initial_total Put 3 1 w) ltac:(lia)) as (cf3 & s3 & E3).
  assert (G : gridded kind 4 5 1 10) by (split; [auto|]; unfold ULONG_MOD, INT_MAX; repeat split; first [lia|lra]).
  assert (V1 : vanilla_solver kind 4 5 1 10 Put 1 (o_bs Put 1 1) cf1 s1) by (split; [now right|]; split; [reflexivity|]; eauto).
  assert (V2 : vanilla_solver kind 4 5 1 10 Put 2 (o_bs Put 2 1) cf2 s2) by (split; [now right|]; split; [reflexivity|]; eauto).
  assert (V3 : vanilla_solver kind 4 5 1 10 Put 3 (o_bs Put 3 1) cf3 s3) by (split; [now right|]; split; [reflexivity|]; eauto).
  assert (CA : calm kind 5 1 10 1 0 0) by (split; [rewrite Rminus_0_r, Rabs_R0; lra|]; split; [lra|]; intros _; lra).
  destruct (C89_strike kind lu 4 5 1 10 Put 1 2 _ _ cf1 s1 cf2 s2 w (mkStock 1 1 None) G V1 V2) as (v1 & v2 & s1' & s2' & SO & B); try reflexivity; try exact CA; try (cbn; lra).
  destruct (C89_convex kind lu 4 5 1 10 Put (1 / 2) 1 2 3 _ _ _ cf1 s1 cf2 s2 cf3 s3 w (mkStock 1 1 None) G V1 V2 V3) as (u1 & u2 & v3 & a & b & s3' & SO' & B'); try reflexivity; try exact CA; try (cbn; lra).
  destruct (SO 9%nat) as [A1 A2]; [cbn; lia|]. destruct (SO' 9%nat) as (C1 & C2 & C3); [cbn; lia|].
  exists cf1, s1, cf2, s2, cf3, s3, v1, v2, v3, s1', s2', s3'. repeat (split; [assumption|]).
  assert (u1 = v1) by congruence. assert (u2 = v2) by congruence. subst u1 u2.
  intros j JJ. specialize (B j JJ). specialize (B' j JJ). cbn beta iota in B. lra.
Qed.

(** C90, C91: the heat equation u_t = u_xx, solved by u = x^4 + 12 t x^2 + 12 t^2; the grid
    has h = 1/4 and dt = 1/32, so that the explicit condition dt <= h^2/2 holds. *)
Definition heat_u (t x : R) : R := x * x * x * x + 12 * t * x * x + 12 * t * t.
Definition heat : Pde R := mkPde (fun _ _ _ => Ok 1) (fun _ _ _ => Ok 0) (fun _ _ _ => Ok 0) (fun _ _ _ => Ok 0)
  (fun _ t x => Ok (heat_u t x)) (fun _ t x => Ok (heat_u t x)) (fun _ x => Ok (heat_u 0 x)).
Definition heat_coefs : Coefs R := mkCoefs (fun _ _ => 1) (fun _ _ => 0) (fun _ _ => 0) (fun _ _ => 0) heat_u heat_u.
Example C91_ex : forall kind lu mem w, kind = KExplicit \/ kind = KImplicit -> exists cf s v s',
  Fdm_ctor kind 1 5 1 33 heat (o_bs Put 1 1) None (Some ThomasAlgorithm) mem w = Ok (cf, s) /\
  solve lu cf w 32 s = Some (Ok v, s') /\
  forall j, (j < 5)%nat -> Rabs (el v j - heat_u 1 (node 1 5 j)) <= 1 / 32 * ((match kind with KExplicit => 36 | _ => 0 end) + 1 * 24 / 2) + (1 / 4) * (1 / 4) * (1 * (1 * 24 / 12 + 0)).
Proof.
  intros kind lu mem w KK.
  destruct (ctor_total _ _ kind 1 5 1 33 heat (o_bs Put 1 1) None (Some ThomasAlgorithm) mem w) as (cf & s & E); [intros x; eexists; reflexivity|lia|].
  assert (G : gridded kind 1 5 1 33) by (split; [auto|]; unfold ULONG_MOD, INT_MAX; repeat split; first [lia|lra]).
  destruct (C91_order kind lu 1 5 1 33 heat (o_bs Put 1 1) None mem w cf s w heat_coefs heat_u
    (fun t x => 12 * x * x + 24 * t) (fun _ _ => 24) (fun t x => 4 * x * x * x + 24 * t * x) (fun t x => 12 * x * x + 24 * t)
    (fun _ x => 24 * x) (fun _ _ => 24) 36 24 24 24 1 0 G E) as (v & s' & SO & ER).
  - intros t x. cbn. repeat split; reflexivity.
  - intros t x T X. unfold heat_u. cbn [kd kc kr kf kl kg heat_coefs].
    split; [auto_derive; [easy|ring]|]. split; [auto_derive; [easy|ring]|]. split; [auto_derive; [easy|ring]|]. split; [auto_derive; [easy|ring]|].
    split; [auto_derive; [easy|ring]|]. split; [auto_derive; [easy|ring]|].
    repeat match goal with |- Rabs _ <= _ /\ _ => split; [apply Rabs_le; nra|] end.
    split; [ring|]. split; reflexivity.
  - intros x a X I. cbn in I. now injection I as <-.
  - intros t T j JJ x. cbn [kd kc kr heat_coefs]. rewrite Rabs_R0. split; [lra|]. split; [lra|]. intros _. lra.
  - exists cf, s, v, s'. split; [exact E|]. split; [apply SO; cbn; lia|]. intros j JJ. specialize (ER j JJ).
    eapply Rle_trans; [exact ER|]. apply Req_le. field.
Qed.

(** C92: nine implicit steps at a rate of 5%. *)
Example C92_ex : forall lu mem, exists cf s v s',
  let o := o_bs Call 0 1 in let w := w_bs 1 1 (5 / 100) in
  Fdm_ctor KImplicit 4 5 1 10 (BlackScholesPDE o) o None (Some ThomasAlgorithm) mem w = Ok (cf, s) /\
  solve lu cf w 9 s = Some (Ok v, s') /\ forall j, (j < 5)%nat -> el v j = INR j.
Proof.
  intros lu mem. set (o := o_bs Call 0 1). set (w := w_bs 1 1 (5 / 100)).
  destruct (ctor_total _ _ KImplicit 4 5 1 10 (BlackScholesPDE o) o None (Some ThomasAlgorithm) mem w (initial_total Call 0 1 w) ltac:(lia)) as (cf & s & E).
  assert (G : gridded KImplicit 4 5 1 10) by (split; [auto|]; unfold ULONG_MOD, INT_MAX; repeat split; first [lia|lra]).
  assert (VS : vanilla_solver KImplicit 4 5 1 10 Call 0 o cf s) by (split; [now left|]; split; [reflexivity|]; eauto).
  destruct (C92_zero_strike_partial KImplicit lu 4 5 1 10 o cf s w (mkStock 1 1 None) G VS) as (v & s' & SO & _ & B); try reflexivity.
  { intros _. split; [cbn; rewrite Rminus_0_r, Rabs_pos_eq; lra|]. split; [cbn; lra|]. discriminate. }
  exists cf, s, v, s'. split; [exact E|]. split; [apply SO; cbn; lia|]. intros j JJ. rewrite B by easy. unfold node. field.
Qed.
