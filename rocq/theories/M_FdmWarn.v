(** The warnings that the finite-difference solvers print on std::cerr. *)
From Coq Require Import List ZArith Bool.
From Verif Require Import M_Num M_Outcome M_Market M_Numeric M_Fdm.
Import ListNotations.

Section Warn.
Context {T : Type} {num : Num T}.
Local Open Scope num_scope.
Local Open Scope outcome_scope.

(** base_fdm_solver.cpp:19-20: whether the constructor of [cf] prints "CFL condition not
    satisfied!"; every scheme runs this test. *)
Definition cfl_warning (cf : Conf T) : bool := cDt cf / (cDx cf * cDx cf) >=? nhalf.

(** euler_implicit_fdm_solver.cpp:36-48: whether row j at time tCurr = [t] prints
    "Matrix is not diagonally dominant at row j" *)
Definition implicit_warns (cf : Conf T) (w : Market T) (t : T) (j : Z) : outcome bool :=
  let* x := vget (cX cf) j in
  let* d := diffusion (cPde cf) w t x in
  let* c := convection (cPde cf) w t x in
  let* r := reaction (cPde cf) w t x in
  let dtSig := cDt cf * d in
  let dtSig2 := nhalf * cDt cf * cDx cf * c in
  let alpha := dtSig - dtSig2 in
  let beta := - cDx2 cf - n2 * dtSig + cDt cf * cDx2 cf * r in
  let gamma := dtSig + dtSig2 in
  Ok (nabs beta <? nabs alpha + nabs gamma).

(** crank_nicolson_fdm_solver.cpp:41-53 *)
Definition cn_warns (cf : Conf T) (w : Market T) (t : T) (j : Z) : outcome bool :=
  let* x := vget (cX cf) j in
  let* d := diffusion (cPde cf) w t x in
  let* c := convection (cPde cf) w t x in
  let* r := reaction (cPde cf) w t x in
  let dtSig := cDt cf * d in
  let dtSig2 := nhalf * cDt cf * cDx cf * c in
  let reac := nhalf * cDt cf * cDx2 cf * r in
  let alpha := nhalf * (dtSig - dtSig2) in
  let beta := - cDx2 cf - dtSig + reac in
  let gamma := nhalf * (dtSig + dtSig2) in
  Ok (nabs beta <? nabs alpha + nabs gamma).

(** The explicit solver has no such test (euler_explicit_fdm_solver.cpp:20-35). *)
Definition row_warns (cf : Conf T) (w : Market T) (t : T) (j : Z) : outcome bool :=
  match cScheme cf with
  | EulerExplicit => Ok false
  | EulerImplicit _ => implicit_warns cf w t j
  | CrankNicolson _ => cn_warns cf w t j
  end.

(** The rows j, j+1, ... ([n] of them) that warn, in the order of the messages. *)
Fixpoint warned (cf : Conf T) (w : Market T) (t : T) (n : nat) (j : Z) : outcome (list Z) :=
  match n with
  | O => Ok []
  | Datatypes.S n' =>
      let* b := row_warns cf w t j in
      let* rest := warned cf w t n' (j + 1)%Z in
      Ok (if b then j :: rest else rest)
  end.

(** The rows reported in the time step that starts in state [s].  Simplification: all of
    them; a Crank-Nicolson step solves a system in every iteration of the loop over the
    rows, and if that throws the later rows are not reported. *)
Definition step_warnings (cf : Conf T) (w : Market T) (s : Fdm T) : outcome (list Z) :=
  warned cf w (fTPrev s + cDt cf) (Z.to_nat (ulsub (cJ cf) 1 - 1)) 1.

End Warn.
