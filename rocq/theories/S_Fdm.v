(** Vocabulary for the statements on finite differences. *)
From Coq Require Import List ZArith Reals.
From Verif Require Import M_Num M_Outcome M_Market M_Fdm S_Numeric.
Import ListNotations.

(** Functions of time and place. *)
Record Coefs (T : Type) := mkCoefs { kd : T -> T -> T; kc : T -> T -> T; kr : T -> T -> T; kf : T -> T -> T;
                                     kl : T -> T -> T; kg : T -> T -> T }.
Arguments mkCoefs {T} _ _ _ _ _ _.
Arguments kd {T} _ _ _. Arguments kc {T} _ _ _. Arguments kr {T} _ _ _. Arguments kf {T} _ _ _.
Arguments kl {T} _ _ _. Arguments kg {T} _ _ _.

(** In market [w] the equation has diffusion [kd], convection [kc], reaction [kr], right-hand
    side [kf] and boundary values [kl] and [kg]; none of them throws. *)
Definition evaluates {T} (p : Pde T) (w : Market T) (k : Coefs T) : Prop :=
  forall t x,
    diffusion p w t x = Ok (kd k t x) /\ convection p w t x = Ok (kc k t x) /\
    reaction p w t x = Ok (kr k t x) /\ rightHandSide p w t x = Ok (kf k t x) /\
    boundaryLeft p w t x = Ok (kl k t x) /\ boundaryRight p w t x = Ok (kg k t x).

(** A solver object on a grid of [n] nodes. *)
Definition sized {T} (cf : Conf T) (s : Fdm T) (n : nat) : Prop :=
  cJ cf = Z.of_nat n /\ (Z.of_nat n < ULONG_MOD)%Z /\
  length (cX cf) = n /\ length (fOld s) = n /\ length (fNew s) = n.

Local Open Scope R_scope.

(** The space operator d u_xx + c u_x + r u with central differences of width h. *)
Definition space (k : Coefs R) (t x h um u up : R) : R :=
  kd k t x * ((up - 2 * u + um) / (h * h)) + kc k t x * ((up - um) / (2 * h)) + kr k t x * u.
Definition space_at (k : Coefs R) (t h : R) (xs u : list R) (j : nat) : R :=
  space k t (el xs j) h (el u (j - 1)) (el u j) (el u (j + 1)).

(** The three schemes for u_t = d u_xx + c u_x + r u - f at node j. *)
Definition explicit_eq (k : Coefs R) (dt h t : R) (xs old new : list R) (j : nat) : Prop :=
  (el new j - el old j) / dt = space_at k t h xs old j - kf k t (el xs j).
Definition implicit_eq (k : Coefs R) (dt h t : R) (xs old new : list R) (j : nat) : Prop :=
  (el new j - el old j) / dt = space_at k t h xs new j - kf k t (el xs j).
Definition cn_eq (k : Coefs R) (dt h t t' : R) (xs old new : list R) (j : nat) : Prop :=
  (el new j - el old j) / dt =
    ((space_at k t h xs old j - kf k t (el xs j)) + (space_at k t' h xs new j - kf k t' (el xs j))) / 2.

(** [n] successful steps of the time loop, from one object state to another. *)
Inductive steps {T} {num : Num T} (lu : M_Numeric.LuAlg T) (cf : Conf T) (w : Market T) : nat -> Fdm T -> Fdm T -> Prop :=
| steps_0 : forall s, steps lu cf w 0 s s
| steps_S : forall n s s1 s2, time_step lu cf w s = (Ok tt, s1) -> steps lu cf w n s1 s2 ->
    steps lu cf w (Datatypes.S n) s s2.

(** The object once solved. *)
Definition finished {T} (s : Fdm T) : Fdm T :=
  mkFdm (fOld s) (fNew s) (fTPrev s) (fTCurr s) true (fB s).

(** The Black-Scholes equation with the boundary values of the code, for a vanilla option:
    volatility, rate, dividend yield, side, strike, maturity. *)
Definition bs_coefs (sigma r c : R) (ty : M_Payoff.PayoffType) (K mat : R) : Coefs R :=
  mkCoefs (fun _ x => sigma * sigma * x * x / 2) (fun _ x => (r - c) * x) (fun _ _ => - r) (fun _ _ => 0)
    (fun _ _ => match ty with M_Payoff.Call => 0 | _ => K end)
    (fun t x => match ty with M_Payoff.Call => x - K * exp (- r * (mat - t)) | _ => 0 end).

(** Layers [u = u_0, u_1, ..., u_m = v] with [link i u_i u_(i+1)]. *)
Inductive layers (link : nat -> list R -> list R -> Prop) (u : list R) : nat -> list R -> Prop :=
| layers_0 : layers link u 0 u
| layers_S : forall m v v', layers link u m v -> link m v v' -> layers link u (Datatypes.S m) v'.

(** Layer i+1 of the explicit and of the implicit scheme on n nodes, with the boundary
    values that the code uses. *)
Definition explicit_layer (k : Coefs R) (dt h : R) (xs : list R) (n : nat) (i : nat) (old new : list R) : Prop :=
  let t := INR i * dt in
  length new = n /\ el new 0 = kl k t (el xs 0) /\ el new (n - 1) = kg k t (el xs (n - 1)) /\
  forall j, (1 <= j <= n - 2)%nat -> explicit_eq k dt h t xs old new j.
Definition implicit_layer (k : Coefs R) (dt h : R) (xs : list R) (n : nat) (i : nat) (old new : list R) : Prop :=
  let t := INR (i + 1) * dt in
  length new = n /\ el new 0 = kl k t (el xs 0) /\ el new (n - 1) = kg k t (el xs (n - 1)) /\
  forall j, (1 <= j <= n - 2)%nat -> implicit_eq k dt h t xs old new j.

(** The values of [u] with 0 at both ends. *)
Definition zero_ends (n : nat) (u : list R) : list R :=
  map (fun j => if (Nat.eqb j 0 || Nat.eqb j (n - 1))%bool then 0 else el u j) (seq 0 n).
(** Layer i+1 of the Crank-Nicolson code: the old boundary values count as 0. *)
Definition cn_layer_code (k : Coefs R) (dt h : R) (xs : list R) (n : nat) (i : nat) (old new : list R) : Prop :=
  let t := INR i * dt in
  let t' := INR (i + 1) * dt in
  length new = n /\ el new 0 = kl k t' (el xs 0) /\ el new (n - 1) = kg k t' (el xs (n - 1)) /\
  forall j, (1 <= j <= n - 2)%nat -> cn_eq k dt h t t' xs (zero_ends n old) new j.

(** All values between 0 and M. *)
Definition within (M : R) (u : list R) : Prop := Forall (fun x => 0 <= x <= M) u.

(** Convection is dominated by diffusion on the grid, and nothing grows. *)
Definition stable (k : Coefs R) (h : R) (xs : list R) (n : nat) (t : R) : Prop :=
  forall j, (1 <= j <= n - 2)%nat -> Rabs (kc k t (el xs j)) * h <= 2 * kd k t (el xs j) /\ kr k t (el xs j) <= 0.
