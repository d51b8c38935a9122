(** src/solver/finite_difference_method/pde/one_factor/*.cpp and
    src/solver/finite_difference_method/solver/one_factor/*.cpp with their headers.

    The two warnings on std::cerr (base_fdm_solver.cpp:19-20 and the diagonal dominance
    checks) change no state; they are modelled apart, in M_FdmWarn.v.  A member function may
    throw in the middle, so every one returns its outcome together with the object as it
    then is. *)
From Coq Require Import String List ZArith Bool.
From Verif Require Import M_Num M_Outcome M_Dict M_Stock M_Market M_Payoff M_Option M_Numeric.
Import ListNotations.

Section Fdm.
Context {T : Type} {num : Num T}.
Local Open Scope num_scope.
Local Open Scope outcome_scope.

(** ** Equations *)

(** pde/one_factor/base_convection_diffusion_pde.h:6-18: any class derived from
    ConvectionDiffusionPDE.  Its functions may read the market and may throw. *)
Record Pde := mkPde {
  diffusion : Market T -> T -> T -> outcome T;
  convection : Market T -> T -> T -> outcome T;
  reaction : Market T -> T -> T -> outcome T;
  rightHandSide : Market T -> T -> T -> outcome T;
  boundaryLeft : Market T -> T -> T -> outcome T;
  boundaryRight : Market T -> T -> T -> outcome T;
  initialCondition : Market T -> T -> outcome T
}.

(** marketData_->getStockData(id) and a read through the pointer *)
Definition stock_of (o : Option T) (w : Market T) : outcome (StockData T) :=
  let* l := getStockData (optTicker o) w in deref l w.

(** black_scholes_pde.cpp:11-14 *)
Definition bs_diffusion (o : Option T) (w : Market T) (t x : T) : outcome T :=
  let* d := stock_of o w in
  let sigma := getSigma d in
  Ok (nhalf * sigma * sigma * x * x).

(** black_scholes_pde.cpp:16-20 *)
Definition bs_convection (o : Option T) (w : Market T) (t x : T) : outcome T :=
  let* d := stock_of o w in
  let c := match getCoupon d with Some c => c | None => n0 end in
  let r := getR w in
  Ok ((r - c) * x).

(** black_scholes_pde.cpp:22-25 *)
Definition bs_reaction (w : Market T) (t x : T) : outcome T := Ok (- getR w).

(** black_scholes_pde.cpp:27-29 *)
Definition bs_rightHandSide (t x : T) : outcome T := Ok n0.

(** dynamic_pointer_cast<PayoffSingleStrike> and getK: the vanilla and the digital payoff
    derive from PayoffSingleStrike. *)
Definition singleStrike (p : Payoff T) : option T :=
  match p with
  | PVanilla _ K | PDigital _ K => Some K
  | _ => None
  end.

(** black_scholes_pde.cpp:31-42 *)
Definition bs_boundaryLeft (o : Option T) (t x : T) : outcome T :=
  match singleStrike (payoff_clone (optPayoff o)) with
  | None => Throw InvalidArgument
  | Some K => if PayoffType_eqb (getPayoffType (optPayoff o)) Call then Ok n0 else Ok K
  end.

(** black_scholes_pde.cpp:44-58 *)
Definition bs_boundaryRight (o : Option T) (w : Market T) (t x : T) : outcome T :=
  match singleStrike (payoff_clone (optPayoff o)) with
  | None => Throw InvalidArgument
  | Some K =>
      if PayoffType_eqb (getPayoffType (optPayoff o)) Call
      then Ok (x - K * nexp (- getR w * (optT o - t)))
      else Ok n0
  end.

(** black_scholes_pde.cpp:6-7, 60-62 *)
Definition BlackScholesPDE (o : Option T) : Pde :=
  mkPde (bs_diffusion o) (bs_convection o) bs_reaction (fun _ => bs_rightHandSide)
        (fun _ => bs_boundaryLeft o) (bs_boundaryRight o) (fun _ => option_payoff1 o).

(** ** Solvers *)

(** The classes derived from FDMSolver, with their matrixSolver_. *)
Inductive Scheme :=
| EulerExplicit
| EulerImplicit (s : MatrixSolver T)
| CrankNicolson (s : MatrixSolver T).

(** solver/one_factor/base_fdm_solver.h:33-56: the members that the constructor sets for
    good. *)
Record Conf := mkConf {
  cScheme : Scheme;
  cXDom : T; cJ : Z; cDx : T; cDx2 : T; cX : list T;     (* xDom_, J_, dx, dx2, xValues *)
  cTDom : T; cN : Z; cDt : T;                            (* tDom_, N_, dt *)
  cPde : Pde; cOption : Option T; cInterp : Interpolation T
}.

(** The members that change.  [fB] is the vector b of the Crank-Nicolson solver, which a
    solve inside the loop over the nodes reads before all of it has been written.  The
    other members (alpha, beta, gamma, the matrix A and the b of the implicit solver) are
    always written before they are read. *)
Record Fdm := mkFdm {
  fOld : list T; fNew : list T;      (* oldPrices, newPrices *)
  fTPrev : T; fTCurr : T;
  fSolved : bool;
  fB : list T
}.

(** Member functions *)
Definition FM (A : Type) : Type := Fdm -> outcome A * Fdm.
Definition fret {A} (a : A) : FM A := fun s => (Ok a, s).
Definition fbind {A B} (m : FM A) (f : A -> FM B) : FM B := fun s =>
  match m s with
  | (Ok a, s') => f a s'
  | (Throw e, s') => (Throw e, s')
  | (UB, s') => (UB, s')
  end.
Definition flift {A} (o : outcome A) : FM A := fun s => (o, s).
Definition fget : FM Fdm := fun s => (Ok s, s).
Definition fput (s : Fdm) : FM unit := fun _ => (Ok tt, s).
Notation "'do' x := m 'in' f" := (fbind m (fun x => f))
  (at level 200, x pattern, m at level 100, f at level 200, right associativity).

(** [n] executions of a loop body that gets the counter. *)
Fixpoint floop (n : nat) (i : Z) (body : Z -> FM unit) : FM unit :=
  match n with
  | O => fret tt
  | Datatypes.S n' => do _ := body i in floop n' (i + 1)%Z body
  end.

(** [v[i] = x]: undefined out of bounds *)
Definition vput (v : list T) (i : Z) (x : T) : outcome (list T) :=
  let* _ := vget v i in Ok (lset (Z.to_nat i) x v).

Definition setOld (v : list T) : FM unit := fun s =>
  (Ok tt, mkFdm v (fNew s) (fTPrev s) (fTCurr s) (fSolved s) (fB s)).
Definition setNew (v : list T) : FM unit := fun s =>
  (Ok tt, mkFdm (fOld s) v (fTPrev s) (fTCurr s) (fSolved s) (fB s)).
Definition setTPrev (t : T) : FM unit := fun s =>
  (Ok tt, mkFdm (fOld s) (fNew s) t (fTCurr s) (fSolved s) (fB s)).
Definition setTCurr (t : T) : FM unit := fun s =>
  (Ok tt, mkFdm (fOld s) (fNew s) (fTPrev s) t (fSolved s) (fB s)).
Definition setSolved (b : bool) : FM unit := fun s =>
  (Ok tt, mkFdm (fOld s) (fNew s) (fTPrev s) (fTCurr s) b (fB s)).
Definition setB (v : list T) : FM unit := fun s =>
  (Ok tt, mkFdm (fOld s) (fNew s) (fTPrev s) (fTCurr s) (fSolved s) v).

(** newPrices[i] = x, b[i] = x *)
Definition writeNew (i : Z) (x : T) : FM unit :=
  do s := fget in do v := flift (vput (fNew s) i x) in setNew v.
Definition writeB (i : Z) (x : T) : FM unit :=
  do s := fget in do v := flift (vput (fB s) i x) in setB v.

(** J_-1, J_-2 as unsigned long *)
Definition ulsub (a b : Z) : Z := ((a - b) mod ULONG_MOD)%Z.
(** [for (unsigned long j = 1; j < J_-1; j++) body] *)
Definition for_inner (J : Z) (body : Z -> FM unit) : FM unit :=
  floop (Z.to_nat (ulsub J 1 - 1)) 1 body.

(** A.setFromTriplets on an n x n matrix: duplicates are added up, other elements are 0. *)
Definition from_triplets (n : nat) (ts : list (Z * Z * T)) : list (list T) :=
  map (fun i => map (fun j =>
    match filter (fun t => (fst (fst t) =? Z.of_nat i)%Z && (snd (fst t) =? Z.of_nat j)%Z) ts with
    | [] => n0
    | t :: l => fold_left nadd (map snd l) (snd t)
    end) (seq 0 n)) (seq 0 n).

Section Solver.
Variable lu : LuAlg T.    (* Eigen *)
Variable cf : Conf.
Variable w : Market T.

(** calculateBoundaryConditions: euler_explicit_fdm_solver.cpp:15-18 (at tPrev),
    euler_implicit_fdm_solver.cpp:26-29 and crank_nicolson_fdm_solver.cpp:26-29 (at tCurr).
    The right operand of an assignment is evaluated first. *)
Definition boundary_time (s : Fdm) : T :=
  match cScheme cf with EulerExplicit => fTPrev s | _ => fTCurr s end.
Definition calculateBoundaryConditions : FM unit :=
  do s := fget in
  do x := flift (vfront (cX cf)) in
  do v := flift (boundaryLeft (cPde cf) w (boundary_time s) x) in
  do _ := writeNew 0 v in
  do x' := flift (vback (cX cf)) in
  do v' := flift (boundaryRight (cPde cf) w (boundary_time s) x') in
  writeNew (Z.of_nat (length (fNew s)) - 1) v'.

(** euler_explicit_fdm_solver.cpp:21-34 *)
Definition explicit_body (j : Z) : FM unit :=
  do s := fget in
  do x := flift (vget (cX cf) j) in
  do d := flift (diffusion (cPde cf) w (fTPrev s) x) in
  do c := flift (convection (cPde cf) w (fTPrev s) x) in
  do r := flift (reaction (cPde cf) w (fTPrev s) x) in
  do f := flift (rightHandSide (cPde cf) w (fTPrev s) x) in
  do ol := flift (vget (fOld s) (j - 1)) in
  do om := flift (vget (fOld s) j) in
  do or := flift (vget (fOld s) (j + 1)) in
  let dtSig := cDt cf * d in
  let dtSig2 := nhalf * cDt cf * cDx cf * c in
  let alpha := dtSig - dtSig2 in
  let beta := cDx2 cf - n2 * dtSig + cDt cf * cDx2 cf * r in
  let gamma := dtSig + dtSig2 in
  writeNew j ((alpha * ol + beta * om + gamma * or) / cDx2 cf - cDt cf * f).

(** euler_implicit_fdm_solver.cpp:35-65: the new triplets and b[j-1].  [j-1 = 0] and
    [j-1 = J-3] are the elements with boundary terms; for J = 3 both are subtracted. *)
Definition implicit_row (s : Fdm) (j : Z) : outcome (list (Z * Z * T) * T) :=
  let* x := vget (cX cf) j in
  let* d := diffusion (cPde cf) w (fTCurr s) x in
  let* c := convection (cPde cf) w (fTCurr s) x in
  let* r := reaction (cPde cf) w (fTCurr s) x in
  let* f := rightHandSide (cPde cf) w (fTCurr s) x in
  let* om := vget (fOld s) j in
  let dtSig := cDt cf * d in
  let dtSig2 := nhalf * cDt cf * cDx cf * c in
  let alpha := dtSig - dtSig2 in
  let beta := - cDx2 cf - n2 * dtSig + cDt cf * cDx2 cf * r in
  let gamma := dtSig + dtSig2 in
  let ts := (if (1 <? j)%Z then [((j - 1)%Z, (j - 2)%Z, alpha)] else [])
            ++ [((j - 1)%Z, (j - 1)%Z, beta)]
            ++ (if (j <? ulsub (cJ cf) 2)%Z then [((j - 1)%Z, j, gamma)] else []) in
  let b := cDx2 cf * (cDt cf * f - om) in
  let* b := (if (j =? 1)%Z then let* v := vget (fNew s) 0 in Ok (b - alpha * v) else Ok b) in
  let* b := (if (j =? ulsub (cJ cf) 2)%Z
             then let* v := vget (fNew s) (ulsub (cJ cf) 1) in Ok (b - gamma * v) else Ok b) in
  Ok (ts, b).

(** The rows j, j+1, ... (n of them): the triplets and the vector b. *)
Fixpoint implicit_rows (s : Fdm) (n : nat) (j : Z) : outcome (list (Z * Z * T) * list T) :=
  match n with
  | O => Ok ([], [])
  | Datatypes.S n' =>
      let* (ts, b) := implicit_row s j in
      let* (ts', bs) := implicit_rows s n' (j + 1)%Z in
      Ok (ts ++ ts', b :: bs)
  end.

(** euler_implicit_fdm_solver.cpp:72-74, crank_nicolson_fdm_solver.cpp:100-102 *)
Definition copy_body (solution : list T) (j : Z) : FM unit :=
  do v := flift (vget solution (j - 1)) in writeNew j v.

(** euler_implicit_fdm_solver.cpp:31-75 *)
Definition implicit_inner (sv : MatrixSolver T) : FM unit :=
  do s := fget in
  do rows := flift (implicit_rows s (Z.to_nat (ulsub (cJ cf) 1 - 1)) 1) in
  let A := from_triplets (Z.to_nat (cJ cf - 2)) (fst rows) in
  do solution := flift (matrix_solve lu sv A (snd rows)) in
  for_inner (cJ cf) (copy_body solution).

(** crank_nicolson_fdm_solver.cpp:39-62: the triplets of row j-1 and b[j-1] before the
    explicit part *)
Definition cn_implicit_part (s : Fdm) (x : T) (j : Z) : outcome (list (Z * Z * T) * T) :=
  let* d := diffusion (cPde cf) w (fTCurr s) x in
  let* c := convection (cPde cf) w (fTCurr s) x in
  let* r := reaction (cPde cf) w (fTCurr s) x in
  let* f := rightHandSide (cPde cf) w (fTCurr s) x in
  let* f' := rightHandSide (cPde cf) w (fTPrev s) x in
  let dtSig := cDt cf * d in
  let dtSig2 := nhalf * cDt cf * cDx cf * c in
  let reac := nhalf * cDt cf * cDx2 cf * r in
  let alpha := nhalf * (dtSig - dtSig2) in
  let beta := - cDx2 cf - dtSig + reac in
  let gamma := nhalf * (dtSig + dtSig2) in
  let ts := (if (1 <? j)%Z then [((j - 1)%Z, (j - 2)%Z, alpha)] else [])
            ++ [((j - 1)%Z, (j - 1)%Z, beta)]
            ++ (if (j <? ulsub (cJ cf) 2)%Z then [((j - 1)%Z, j, gamma)] else []) in
  let b := nhalf * cDx2 cf * cDt cf * (f + f') in
  let* b := (if (j =? 1)%Z then let* v := vget (fNew s) 0 in Ok (b - alpha * v) else Ok b) in
  let* b := (if (j =? ulsub (cJ cf) 2)%Z
             then let* v := vget (fNew s) (ulsub (cJ cf) 1) in Ok (b - gamma * v) else Ok b) in
  Ok (ts, b).

(** crank_nicolson_fdm_solver.cpp:75-91: b[j-1] with the explicit part *)
Definition cn_explicit_part (s : Fdm) (x : T) (j : Z) (b : T) : outcome T :=
  let* d := diffusion (cPde cf) w (fTPrev s) x in
  let* c := convection (cPde cf) w (fTPrev s) x in
  let* r := reaction (cPde cf) w (fTPrev s) x in
  let* om := vget (fOld s) j in
  let dtSig := cDt cf * d in
  let dtSig2 := nhalf * cDt cf * cDx cf * c in
  let reac := nhalf * cDt cf * cDx2 cf * r in
  let alpha := - nhalf * (dtSig - dtSig2) in
  let beta := - cDx2 cf + dtSig - reac in
  let gamma := - nhalf * (dtSig + dtSig2) in
  let b := b + beta * om in
  let* b := (if (1 <? j)%Z then let* ol := vget (fOld s) (j - 1) in Ok (b + alpha * ol) else Ok b) in
  (if (j <? ulsub (cJ cf) 2)%Z then let* or := vget (fOld s) (j + 1) in Ok (b + gamma * or) else Ok b).

(** crank_nicolson_fdm_solver.cpp:38-103: one iteration of the loop over the nodes.
    The matrix is set from the triplets so far and the system is solved in every
    iteration.  Simplification: b[j-1] is written once, after both parts; the code writes
    it before the explicit part, which matters only if that part throws, and then the
    element is rewritten before its next use.  [acc] is tripletListA. *)
Fixpoint cn_loop (sv : MatrixSolver T) (n : nat) (j : Z) (acc : list (Z * Z * T)) : FM unit :=
  match n with
  | O => fret tt
  | Datatypes.S n' =>
      do s := fget in
      do x := flift (vget (cX cf) j) in
      do p := flift (cn_implicit_part s x j) in
      do b := flift (cn_explicit_part s x j (snd p)) in
      do _ := writeB (j - 1) b in
      let acc' := acc ++ fst p in
      do s' := fget in
      let A := from_triplets (Z.to_nat (cJ cf - 2)) acc' in
      do solution := flift (matrix_solve lu sv A (fB s')) in
      do _ := for_inner (cJ cf) (copy_body solution) in
      cn_loop sv n' (j + 1)%Z acc'
  end.

(** calculateInnerDomain *)
Definition calculateInnerDomain : FM unit :=
  match cScheme cf with
  | EulerExplicit => for_inner (cJ cf) explicit_body
  | EulerImplicit sv => implicit_inner sv
  | CrankNicolson sv => cn_loop sv (Z.to_nat (ulsub (cJ cf) 1 - 1)) 1 []
  end.

(** base_fdm_solver.cpp:50-54: the body of the time loop *)
Definition time_step : FM unit :=
  do s := fget in
  do _ := setTCurr (fTPrev s + cDt cf) in
  do _ := calculateBoundaryConditions in
  do _ := calculateInnerDomain in
  do s' := fget in
  do _ := setOld (fNew s') in
  setTPrev (fTCurr s').

(** base_fdm_solver.cpp:48-58.  The loop need not end (dt can be too small to move
    tCurr): [None] after [fuel] iterations. *)
Fixpoint march (fuel : nat) (s : Fdm) : option (outcome unit * Fdm) :=
  if fTCurr s <? cTDom cf then
    match fuel with
    | O => None
    | Datatypes.S fuel' =>
        match time_step s with
        | (Ok _, s') => march fuel' s'
        | r => Some r
        end
    end
  else Some (Ok tt, s).
Definition solve (fuel : nat) (s : Fdm) : option (outcome (list T) * Fdm) :=
  match march fuel s with
  | Some (o, s') => Some ((do _ := flift o in do _ := setSolved true in
                           do s'' := fget in fret (fNew s'')) s')
  | None => None
  end.

(** base_fdm_solver.cpp:60-64 *)
Definition read_price : FM T :=
  do d := flift (stock_of (cOption cf) w) in
  do s := fget in
  flift (interpolate (cInterp cf) (cX cf) (fNew s) (getPrice d)).
Definition calculatePrice (fuel : nat) (s : Fdm) : option (outcome T * Fdm) :=
  if fSolved s then Some (read_price s)
  else match solve fuel s with
       | Some (o, s') => Some ((do _ := flift o in read_price) s')
       | None => None
       end.

End Solver.

(** base_fdm_solver.cpp:36-46: the prices and nodes j, j+1, ... (n of them) *)
Fixpoint initial (p : Pde) (w : Market T) (dx : T) (n : nat) (j : Z) : outcome (list T * list T) :=
  match n with
  | O => Ok ([], [])
  | Datatypes.S n' =>
      let currS := nofZ j * dx in
      let* v := initialCondition p w currS in
      let* (vs, xs) := initial p w dx n' (j + 1)%Z in
      Ok (v :: vs, currS :: xs)
  end.

(** The constructors: base_fdm_solver.cpp:7-46, euler_explicit_fdm_solver.cpp:5-11,
    euler_implicit_fdm_solver.cpp:7-22, crank_nicolson_fdm_solver.cpp:7-22.  [ip] and the
    matrix solver are None for a null pointer.  [A.resize(J_-2, J_-2)] with J_ < 2 has
    negative sizes and is undefined.  [b.resize(J_-2)] does not initialise the elements:
    they are whatever [mem] holds (reading them is formally undefined; here they are
    arbitrary values). *)
Inductive SchemeKind := KExplicit | KImplicit | KCrankNicolson.
Definition scheme_of (k : SchemeKind) (sv : option (MatrixSolver T)) : Scheme :=
  let s := match sv with Some s => s | None => LUDecomposition end in
  match k with
  | KExplicit => EulerExplicit
  | KImplicit => EulerImplicit s
  | KCrankNicolson => CrankNicolson s
  end.
Definition Fdm_ctor (k : SchemeKind) (xDom : T) (J : Z) (tDom : T) (N : Z) (p : Pde) (o : Option T)
    (ip : option (Interpolation T)) (sv : option (MatrixSolver T)) (mem : nat -> T) (w : Market T)
    : outcome (Conf * Fdm) :=
  let dx := xDom / nofZ (ulsub J 1) in
  let dt := tDom / nofZ (ulsub N 1) in
  let dx2 := dx * dx in
  let* (vs, xs) := initial p w dx (Z.to_nat J) 0 in
  let interp := match ip with Some i => i | None => LinearInterpolation end in
  let cf := mkConf (scheme_of k sv) xDom J dx dx2 xs tDom N dt p o interp in
  let zeros := repeat n0 (Z.to_nat J) in
  match k with
  | KExplicit => Ok (cf, mkFdm vs zeros n0 n0 false [])
  | _ => if (J <? 2)%Z then UB
         else Ok (cf, mkFdm vs zeros n0 n0 false (map mem (seq 0 (Z.to_nat (J - 2)))))
  end.

End Fdm.
Arguments Pde T : clear implicits.
Arguments Scheme T : clear implicits.
Arguments Conf T : clear implicits.
Arguments Fdm T : clear implicits.
