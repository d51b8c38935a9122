(** Property C99: the expected Monte Carlo price solves the equation that the finite-difference
    solvers discretise, with their initial condition. *)
From Coq Require Import String List ZArith Bool Lia Reals Lra.
From Coquelicot Require Import Coquelicot.
From Verif Require Import M_Num M_Outcome M_Random M_Dict M_Stock M_Market M_Payoff M_Option M_Model M_Regression M_MonteCarlo M_Builder M_Numeric M_Fdm.
From Verif Require Import S_Market S_Model S_Prob S_Normal S_Option S_MonteCarlo S_Expect S_PriceMean S_Pde.
From Verif Require Import L_MonteCarlo L_Normal L_BlackScholes P_McRelations P_Growth P_PriceMean.
Import ListNotations.
Local Open Scope R_scope.

(** The value of the option held by the Pde object, at time to maturity t and spot x. *)
Definition option_value (o : Option R) (w : Market R) (d : StockData R) : R -> R -> R :=
  bs_value (getSigma d) (getR w) (dividend d) (optPayoff o).

Theorem C99_equation : forall (o : Option R) w d,
  stock_of o w = Ok d -> 0 < getSigma d -> positive_strikes (optPayoff o) ->
  satisfies (BlackScholesPDE o) w (option_value o w d).
Proof.
  intros o w d D S P t x T X.
  destruct (value_solves (getSigma d) (getR w) (dividend d) S _ P t x T X) as (ux & ut & uxx & D1 & D2 & D3 & E).
  exists ux, ut, uxx, (/ 2 * getSigma d * getSigma d * x * x), ((getR w - dividend d) * x), (- getR w), 0.
  do 3 (split; [assumption|]).
  split; [cbn; unfold bs_diffusion; rewrite D; cbn; do 5 f_equal; lra|].
  split; [cbn; unfold bs_convection; rewrite D; reflexivity|]. split; [reflexivity|]. split; [reflexivity|].
  rewrite E. unfold option_value, value. field.
Qed.

(** The limit at maturity is the initial condition of the solvers where the payoff is continuous. *)
Theorem C99_initial : forall (o : Option R) w d x,
  0 < getSigma d -> positive_strikes (optPayoff o) -> 0 < x -> off_jump (optPayoff o) x ->
  exists l, initialCondition (BlackScholesPDE o) w x = Ok l /\ starts (option_value o w d) x l.
Proof.
  intros o w d x S P X J. exists (terminal (optPayoff o) x). split.
  - cbn. unfold option_payoff1. apply terminal_ok. intros ty E. rewrite E in P. exact P.
  - exact (proj2 (tends_eps _ _) (value_starts _ _ _ S _ _ P J X)).
Qed.

(** On the strike of a digital call the solvers start from 0; the value starts from 1/2. *)
Theorem C99_on_the_strike : forall (o : Option R) w d K,
  0 < getSigma d -> optPayoff o = PDigital Call K -> 0 < K ->
  initialCondition (BlackScholesPDE o) w K = Ok 0 /\ starts (option_value o w d) K (1 / 2) /\ ~ starts (option_value o w d) K 0.
Proof.
  intros o w d K S P K0.
  assert (H : starts (option_value o w d) K (1 / 2)).
  { unfold option_value. rewrite P. exact (proj2 (tends_eps _ _) (digital_starts _ _ _ S K K0)). }
  split; [|split; [exact H|]].
  - cbn. unfold option_payoff1. rewrite P, terminal_ok by easy. cbn. destruct (Rlt_dec K K); [lra|reflexivity].
  - intros Z. destruct (H (1/4) ltac:(lra)) as (d1 & P1 & H1). destruct (Z (1/4) ltac:(lra)) as (d2 & P2 & H2).
    assert (M : 0 < Rmin d1 d2) by (now apply Rmin_glb_lt). pose proof (Rmin_l d1 d2). pose proof (Rmin_r d1 d2).
    specialize (H1 (Rmin d1 d2 / 2) ltac:(lra)). specialize (H2 (Rmin d1 d2 / 2) ltac:(lra)).
    apply Rabs_def2 in H1. apply Rabs_def2 in H2. lra.
Qed.

(** The expected Monte Carlo price is that solution at the maturity and the spot. *)
Theorem C99_monte_carlo : forall la P W w wm g N d k,
  gbm_setting P W w wm g N d -> single_price k -> optKind (pcOption P) = k -> getR wm = getR w ->
  let o := pcOption P in
  is_price_mean la P W N (fun v => v) (option_value o w d (optT o) (getPrice d)).
Proof.
  intros la P W w wm g N d k G SP K R o. pose proof (C96_black_scholes la P W w wm g N d k G SP K) as H.
  unfold option_value, bs_value. unfold forward in H. rewrite R in H. exact H.
Qed.

(** *** An instance: AAPL at 100, a call struck at 90 and a digital call struck at 100. *)
Definition vanilla_option : Option R := pcOption (pricer_on CSinglePath European (PVanilla Call 90) None 0).
Example C99_ex : let d := mkStock 100 (2/10) None in
  stock_of vanilla_option (w_at 100) = Ok d /\
  satisfies (BlackScholesPDE vanilla_option) (w_at 100) (option_value vanilla_option (w_at 100) d) /\
  initialCondition (BlackScholesPDE vanilla_option) (w_at 100) 100 = Ok 10 /\
  starts (option_value vanilla_option (w_at 100) d) 100 10.
Proof.
  intros d. assert (D : stock_of vanilla_option (w_at 100) = Ok d) by reflexivity.
  assert (I : initialCondition (BlackScholesPDE vanilla_option) (w_at 100) 100 = Ok 10).
  { cbn -[payoff1]. unfold option_payoff1. rewrite terminal_ok by easy. cbn. f_equal. unfold Rmax. destruct (Rle_dec (100 - 90) 0); lra. }
  split; [exact D|]. split; [apply C99_equation; [exact D|cbn; lra|cbn; lra]|]. split; [exact I|].
  destruct (C99_initial vanilla_option (w_at 100) d 100 ltac:(cbn; lra) ltac:(cbn; lra) ltac:(lra) Logic.I) as (l & E & H).
  rewrite I in E. injection E as <-. exact H.
Qed.

Print Assumptions C99_equation.
Print Assumptions C99_initial.
Print Assumptions C99_on_the_strike.
Print Assumptions C99_monte_carlo.
