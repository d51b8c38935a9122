(** src/numerical_analysis/interpolation/*.cpp and
    src/numerical_analysis/linear_algebra/matrix_solver/*.cpp. *)
From Coq Require Import List ZArith Bool.
From Verif Require Import M_Num M_Outcome.
Import ListNotations.

Section Numeric.
Context {T : Type} {num : Num T}.
Local Open Scope num_scope.
Local Open Scope outcome_scope.

(** ** Interpolation *)

(** The line through nodes k and k+1 (linear_interpolation.cpp:15-19 with k = i-1;
    quadratic_interpolation.cpp:47-52). *)
Definition line (xs ys : list T) (x : T) (k : Z) : outcome T :=
  let* x1 := vget xs k in
  let* x2 := vget xs (k + 1) in
  let* y1 := vget ys k in
  let* y2 := vget ys (k + 1) in
  Ok (y1 + (x - x1) * (y2 - y1) / (x2 - x1)).

(** linear_interpolation.cpp:13-22: the loop from i, n iterations left. *)
Fixpoint linear_loop (xs ys : list T) (x : T) (n : nat) (i : Z) : outcome T :=
  match n with
  | O => Throw RuntimeError
  | Datatypes.S n' =>
      let* xi := vget xs i in
      if x <? xi then line xs ys x (i - 1) else linear_loop xs ys x n' (i + 1)
  end.

(** linear_interpolation.cpp:5-23 *)
Definition linear_interpolate (xs ys : list T) (x : T) : outcome T :=
  let* x0 := vfront xs in
  if x <=? x0 then vfront ys
  else
    let* xn := vback xs in
    if x >=? xn then vback ys
    else linear_loop xs ys x (length xs - 1) 1.

(** quadratic_interpolation.cpp:26-42: the while loop.  The operands are unsigned int;
    [&&] reads xs[mid+1] only when its left operand holds.  [fuel] bounds the number of
    iterations.  The interval [low, high] shrinks in every iteration that does not wrap
    an index, so a loop that has not ended after size + 33 iterations (given by
    findInterval) has wrapped and not read outside the grid, which takes 2^31 nodes; it
    then repeats forever and is undefined. *)
Fixpoint search (fuel : nat) (xs : list T) (t : T) (low high : Z) : outcome Z :=
  match fuel with
  | O => UB
  | Datatypes.S fuel' =>
      if (low <=? high)%Z then
        let mid := ((low + ((high - low) / 2)) mod UINT_MOD)%Z in
        let* xm := vget xs mid in
        let* found :=
          (if xm <=? t
           then let* xm1 := vget xs ((mid + 1) mod UINT_MOD)%Z in Ok (t <=? xm1)
           else Ok false) in
        if found then Ok mid
        else if xm <? t then search fuel' xs t ((mid + 1) mod UINT_MOD)%Z high
        else search fuel' xs t low ((mid - 1) mod UINT_MOD)%Z
      else Throw RuntimeError
  end.

(** quadratic_interpolation.cpp:26-42 *)
Definition findInterval (xs : list T) (t : T) : outcome Z :=
  let n := Z.of_nat (length xs) in
  search (length xs + 33) xs t 0 ((n - 1) mod UINT_MOD)%Z.

(** quadratic_interpolation.cpp:55-69 ([k-1] is an unsigned int, here k >= 1) *)
Definition parabola (xs ys : list T) (s : T) (k : Z) : outcome T :=
  let* x0 := vget xs (k - 1) in
  let* y0 := vget ys (k - 1) in
  let* x1 := vget xs k in
  let* y1 := vget ys k in
  let* x2 := vget xs (k + 1) in
  let* y2 := vget ys (k + 1) in
  let l0 := ((s - x1) * (s - x2)) / ((x0 - x1) * (x0 - x2)) in
  let l1 := ((s - x0) * (s - x2)) / ((x1 - x0) * (x1 - x2)) in
  let l2 := ((s - x0) * (s - x1)) / ((x2 - x0) * (x2 - x1)) in
  Ok (y0 * l0 + y1 * l1 + y2 * l2).

(** quadratic_interpolation.cpp:5-24.  [size() - 2] is a size_t. *)
Definition quadratic_interpolate (xs ys : list T) (x : T) : outcome T :=
  let* x0 := vfront xs in
  if x <=? x0 then vfront ys
  else
    let* xn := vback xs in
    if x >=? xn then vback ys
    else
      let* k := findInterval xs x in
      if ((k =? 0) || (k =? (Z.of_nat (length xs) - 2) mod ULONG_MOD))%Z%bool
      then line xs ys x k
      else parabola xs ys x k.

(** include/numerical_analysis/interpolation/*.h; [CustomInterpolation] is any other class
    derived from Interpolation. *)
Inductive Interpolation :=
| LinearInterpolation | QuadraticInterpolation
| CustomInterpolation (f : list T -> list T -> T -> outcome T).
Definition interpolate (ip : Interpolation) : list T -> list T -> T -> outcome T :=
  match ip with
  | LinearInterpolation => linear_interpolate
  | QuadraticInterpolation => quadratic_interpolate
  | CustomInterpolation f => f
  end.

(** ** Linear systems *)

(** A (sparse) matrix is the list of its rows; [A.coeff(i, j)] outside is undefined. *)
Definition coeff (A : list (list T)) (i j : Z) : outcome T :=
  let* row := vget A i in vget row j.

(** A vector of [n] elements filled by an indexed loop. *)
Fixpoint fill (n : nat) (i : Z) (f : Z -> outcome T) : outcome (list T) :=
  match n with
  | O => Ok []
  | Datatypes.S n' => let* v := f i in let* rest := fill n' (i + 1)%Z f in Ok (v :: rest)
  end.

(** thomas_algorithm.cpp:25-29: one step of the forward sweep; [cs] and [ds] hold the
    elements of cStar and dStar computed so far. *)
Definition sweep_step (a bDiag c b : list T) (i : Z) (st : list T * list T) : outcome (list T * list T) :=
  let '(cs, ds) := st in
  let* bi := vget bDiag i in
  let* ai := vget a (i - 1)%Z in
  let* cp := vget cs (i - 1)%Z in
  let* dp := vget ds (i - 1)%Z in
  let* ci := vget c i in
  let* di := vget b i in
  let m := bi - ai * cp in
  Ok (cs ++ [ci / m], ds ++ [(di - ai * dp) / m]).

(** thomas_algorithm.cpp:36-38: [x] holds the elements from i+1 on, with i = n-2-k. *)
Definition back_step (n : Z) (cs ds : list T) (k : Z) (x : list T) : outcome (list T) :=
  let i := (n - 2 - k)%Z in
  let* di := vget ds i in
  let* ci := vget cs i in
  let* xn := vfront x in
  Ok (di - ci * xn :: x).

(** thomas_algorithm.cpp:5-41.  [int i = n-2] needs n-2 to fit an int; beyond that the
    loop is skipped or starts elsewhere and uninitialised elements are returned, here
    undefined. *)
Definition thomas (A : list (list T)) (b : list T) : outcome (list T) :=
  let n := length A in
  let zn := Z.of_nat n in
  if (zn <? 2)%Z then Throw InvalidArgument
  else
    let* a := fill (n - 1) 0 (fun i => coeff A (i + 1)%Z i) in
    let* c := fill (n - 1) 0 (fun i => coeff A i (i + 1)%Z) in
    let* bDiag := fill n 0 (fun i => coeff A i i) in
    let* c0 := vget c 0 in
    let* b0 := vget bDiag 0 in
    let* d0 := vget b 0 in
    let* st := iter_from (n - 2) 1 (sweep_step a bDiag c b) ([c0 / b0], [d0 / b0]) in
    let '(cs, ds) := st in
    let* bl := vget b (zn - 1)%Z in
    let* al := vget a (zn - 2)%Z in
    let* dl := vget ds (zn - 2)%Z in
    let* bd := vget bDiag (zn - 1)%Z in
    let* cl := vget cs (zn - 2)%Z in
    let xl := (bl - al * dl) / (bd - al * cl) in
    if (zn - 2 <=? INT_MAX)%Z then
      iter_from (n - 1) 0 (back_step zn cs (ds ++ [xl])) [xl]
    else UB.

(** Eigen's decompositions are oracles: SparseLU's compute and solve, each of which may
    report failure, and PartialPivLU. *)
Record LuAlg := mkLuAlg {
  lu_sparse : list (list T) -> option (list T -> option (list T));
  lu_dense : list (list T) -> list T -> list T
}.

(** include/numerical_analysis/linear_algebra/matrix_solver/*.h; [CustomSolver] is any
    other class derived from MatrixSolver. *)
Inductive MatrixSolver :=
| LUDecomposition | PartialPivotingLU | ThomasAlgorithm
| CustomSolver (f : list (list T) -> list T -> outcome (list T)).

(** solve: lu_decomposition.cpp:6-20, partial_pivoting_lu_decomposition.cpp:6-18,
    thomas_algorithm.cpp:5-41 *)
Definition matrix_solve (lu : LuAlg) (s : MatrixSolver) (A : list (list T)) (b : list T) : outcome (list T) :=
  match s with
  | LUDecomposition =>
      match lu_sparse lu A with
      | None => Throw RuntimeError
      | Some solver => match solver b with None => Throw RuntimeError | Some x => Ok x end
      end
  | PartialPivotingLU => Ok (lu_dense lu A b)
  | ThomasAlgorithm => thomas A b
  | CustomSolver f => f A b
  end.

End Numeric.
Arguments Interpolation T : clear implicits.
Arguments LuAlg T : clear implicits.
Arguments MatrixSolver T : clear implicits.
