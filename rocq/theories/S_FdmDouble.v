(** Vocabulary for the statements on the finite-difference solvers in binary64. *)
From Coq Require Import List ZArith Reals.
From Flocq Require Import Core.
From Verif Require Import M_Num M_Outcome M_Numeric M_Fdm S_Double S_Order S_Fdm.
Local Open Scope R_scope.

(** A row of a linear system (below the diagonal, on it, above it) whose neighbours are
    not negative and whose diagonal is negative and dominates them, all in computed
    numbers. *)
Definition dominant_row (a b g : b64) : Prop :=
  finite a /\ finite b /\ finite g /\ 0 <= val a /\ 0 <= val g /\
  val (b64_add b a) < 0 /\ val g <= - val (b64_add b a).

Section Weights.
Context {T : Type} {num : Num T}.
Local Open Scope num_scope.
(** The numbers that multiply the neighbours and the node itself, for diffusion [d],
    convection [c] and reaction [r] at the node. *)
Definition lower (dt dx d c : T) : T := dt * d - nhalf * dt * dx * c.
Definition upper (dt dx d c : T) : T := dt * d + nhalf * dt * dx * c.
Definition middle (top dt dx2 d r : T) : T := top - n2 * (dt * d) + dt * dx2 * r.

(** The Black-Scholes equation as computed: volatility, rate, dividend yield, side (a call
    or not), strike, maturity. *)
Definition bs_data (sigma r c : T) (call : bool) (K mat : T) : Coefs T :=
  mkCoefs (fun _ x => nhalf * sigma * sigma * x * x) (fun _ x => (r - c) * x) (fun _ _ => - r) (fun _ _ => n0)
    (fun _ _ => if call then n0 else K) (fun t x => if call then x - K * nexp (- r * (mat - t)) else n0).
End Weights.

(** A number that is finite and not positive. *)
Definition finite_nonpos (x : b64) : Prop := finite x /\ val x <= 0.

(** A step that starts at time [u] reads the coefficients at [u] (explicit), at [u + dt]
    (implicit) or at both.  At node [x], an explicit step computes three weights none of
    which is negative; an implicit step computes a dominant row; a Crank-Nicolson step
    computes a dominant row for the new values and three weights for the old ones, which
    it moves to the right-hand side with a minus sign. *)
Definition sound_node (fexp flog : b64 -> b64) (kind : SchemeKind) (dt dx dx2 : b64) (k : Coefs b64) (u x : b64) : Prop :=
  let num := B64 fexp flog in
  let t := b64_add u dt in
  let half := @nhalf _ num in
  let l v := @lower _ num dt dx (kd k v x) (kc k v x) in
  let g v := @upper _ num dt dx (kd k v x) (kc k v x) in
  match kind with
  | KExplicit => nonneg (l u) /\ nonneg (g u) /\ nonneg (@middle _ num dx2 dt dx2 (kd k u x) (kr k u x))
  | KImplicit => dominant_row (l t) (@middle _ num (@nopp _ num dx2) dt dx2 (kd k t x) (kr k t x)) (g t)
  | KCrankNicolson =>
      dominant_row (b64_mul half (l t))
        (b64_add (b64_sub (b64_opp dx2) (b64_mul dt (kd k t x))) (b64_mul (b64_mul (b64_mul half dt) dx2) (kr k t x)))
        (b64_mul half (g t)) /\
      finite_nonpos (b64_mul (b64_opp half) (l u)) /\ finite_nonpos (b64_mul (b64_opp half) (g u)) /\
      finite_nonpos (b64_sub (b64_add (b64_opp dx2) (b64_mul dt (kd k u x))) (b64_mul (b64_mul (b64_mul half dt) dx2) (kr k u x)))
  end.

(** A time at which a run up to [tDom] makes another step, and the times at which that
    step reads the data. *)
Definition running (tDom u : b64) : Prop := b64_ltb u tDom = true /\ 0 <= val u.
Definition read_at (kind : SchemeKind) (dt tDom t : b64) : Prop :=
  exists u, running tDom u /\ (t = u /\ kind <> KImplicit \/ t = b64_add u dt /\ kind <> KExplicit).

(** At most 0, unless not a number. *)
Definition nonpos (x : b64) : Prop := notnan x -> val x <= 0.

(** Nothing in the data is negative; [x0] and [x1] are the ends of the grid.  (The
    right-hand side enters with a minus sign.) *)
Definition nonneg_data (k : Coefs b64) (x0 x1 t : b64) : Prop :=
  (forall x, nonpos (kf k t x)) /\ nonneg (kl k t x0) /\ nonneg (kg k t x1).

(** The same operator; the data of [k'] lie above those of [k]. *)
Definition same_operator (k k' : Coefs b64) : Prop :=
  forall t x, kd k' t x = kd k t x /\ kc k' t x = kc k t x /\ kr k' t x = kr k t x.
Definition ordered_data (k k' : Coefs b64) (x0 x1 t : b64) : Prop :=
  (forall x, below (kf k' t x) (kf k t x)) /\ below (kl k t x0) (kl k' t x0) /\ below (kg k t x1) (kg k' t x1).

(** The grid of a solver as computed: the step and the squared distance of nodes are finite
    numbers, the step not negative, the distance positive. *)
Definition usable (cf : Conf b64) : Prop :=
  finite (cDt cf) /\ 0 <= val (cDt cf) /\ finite (cDx2 cf) /\ 0 < val (cDx2 cf).
Definition at64 (v : list b64) (j : nat) : b64 := nth j v (b64_ofZ 0).

(** Conditions on the three products that the code forms at a node (diffusion times step,
    convection times step and half the distance, reaction times step and squared distance):
    convection is dominated by diffusion, nothing grows, nothing overflows, and, where old
    values enter, the step is small. *)
Definition quiet (kind : SchemeKind) (D A B Q : b64) : Prop :=
  finite A /\ finite B /\ finite Q /\ Rabs (val B) <= val A /\ val A <= bpow radix2 50 * val D /\
  - bpow radix2 1000 <= val Q <= 0 /\
  match kind with
  | KExplicit => 2 * val A - val Q <= val D
  | KImplicit => True
  | KCrankNicolson => val A - val Q <= val D
  end.
(** A squared distance of ordinary size. *)
Definition ordinary (D : b64) : Prop := finite D /\ bpow radix2 (-900) <= val D <= bpow radix2 900.
