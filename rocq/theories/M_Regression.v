(** src/numerical_analysis/basis_function/*.cpp and src/numerical_analysis/regression/*.cpp.

    A vector is a list, a matrix the list of its rows.  The decompositions come from
    Eigen and are oracles ([LinAlg]): Eigen's jacobiSvd().solve and ldlt().solve.
    Eigen is not modelled; sums are taken from left to right, Eigen may reorder them. *)
From Coq Require Import List ZArith Bool.
From Verif Require Import M_Num M_Outcome.
Import ListNotations.

Section Regression.
Context {T : Type} {num : Num T}.
Local Open Scope num_scope.

Record LinAlg := mkLinAlg {
  la_svd : list (list T) -> list T -> list T;    (* A.jacobiSvd(ThinU | ThinV).solve(y) *)
  la_ldlt : list (list T) -> list T -> list T    (* M.ldlt().solve(b) *)
}.

(** ** Basis functions *)

(** include/numerical_analysis/basis_function/*.h with numberBasis_.  BasisFunction is an
    open class; [CustomBasis] is any other derived class. *)
Inductive Basis :=
| Monomial (n : Z) | Chebyshev (n : Z) | Legendre (n : Z) | Laguerre (n : Z)
| CustomBasis (f : list T -> outcome (list (list T))).

(** base_basis_function.cpp:5-8 (numberBasis_ is unsigned) *)
Definition Basis_ctor (mk : Z -> Basis) (numberBasis : Z) : outcome Basis :=
  if (numberBasis <=? 0)%Z then Throw InvalidArgument else Ok (mk numberBasis).

(** std::pow(x, n) for a nonnegative integer n.  Simplification: repeated product; the C
    library rounds once. *)
Fixpoint npow (x : T) (n : nat) : T :=
  match n with O => n1 | Datatypes.S n' => x * npow x n' end.

(** One row (for one x) of the matrix of the recursive families: columns 0 and 1, then
    column i from columns i-1 and i-2. *)
Fixpoint rec_cols (f : Z -> T -> T -> T) (n : nat) (i : Z) (prev2 prev1 : T) : list T :=
  match n with
  | O => []
  | Datatypes.S n' => let c := f i prev1 prev2 in c :: rec_cols f n' (i + 1)%Z prev1 c
  end.
Definition rec_row (f : Z -> T -> T -> T) (numberBasis : Z) (x : T) : list T :=
  if (numberBasis <=? 1)%Z then [n1]
  else n1 :: x :: rec_cols f (Z.to_nat (numberBasis - 2)) 2 n1 x.

(** chebyshev.cpp:16 *)
Definition cheb_next (x : T) (n : Z) (prev1 prev2 : T) : T := n2 * x * prev1 - prev2.
(** legendre.cpp:15-16.  Simplification: int arithmetic on n is exact. *)
Definition leg_next (x : T) (n : Z) (prev1 prev2 : T) : T :=
  (nofZ (2 * (n - 1) + 1) * x * prev1 - nofZ (n - 1) * prev2) / nofZ n.
(** laguerre.cpp:15-16 *)
Definition lag_next (x : T) (n : Z) (prev1 prev2 : T) : T :=
  ((nofZ (2 * (n - 1) + 1) - x) * prev1 - nofZ (n - 1) * prev2) / nofZ n.

(** generate: monomial.cpp:7-13, chebyshev.cpp:7-20, legendre.cpp:7-20, laguerre.cpp:7-20.
    The loops [for (int n = ..; n < numberBasis_; ++n)] overflow beyond INT_MAX columns. *)
Definition generate (b : Basis) (x : list T) : outcome (list (list T)) :=
  let checked n rows := if (n <=? INT_MAX)%Z then Ok rows else UB in
  match b with
  | Monomial n => checked n (map (fun xi => map (npow xi) (seq 0 (Z.to_nat n))) x)
  | Chebyshev n => checked n (map (fun xi => rec_row (cheb_next xi) n xi) x)
  | Legendre n => checked n (map (fun xi => rec_row (leg_next xi) n xi) x)
  | Laguerre n => checked n (map (fun xi => rec_row (lag_next xi) n xi) x)
  | CustomBasis f => f x
  end.

(** ** Regression *)

(** include/numerical_analysis/regression/*.h; [CustomRegression] is any other class
    derived from Regression. *)
Inductive Regression :=
| LeastSquares | Ridge (lambda : T) | Lasso (lambda : T)
| CustomRegression (f : list (list T) -> list T -> outcome (list T)).

(** ridge.cpp:5-8, lasso.cpp:5-8 *)
Definition Ridge_ctor (lambda : T) : outcome Regression :=
  if lambda <? n0 then Throw InvalidArgument else Ok (Ridge lambda).
Definition Lasso_ctor (lambda : T) : outcome Regression :=
  if lambda <? n0 then Throw InvalidArgument else Ok (Lasso lambda).

(** Dot product of vectors of equal length. *)
Definition dot (u v : list T) : T := nsum (map (fun p => fst p * snd p) (combine u v)).
(** The columns of a matrix with [n] columns. *)
Definition column (A : list (list T)) (j : nat) : list T := map (fun row => nth j row n0) A.
Definition columns (A : list (list T)) : list (list T) :=
  map (column A) (seq 0 (match A with [] => 0 | row :: _ => length row end)).

(** lasso.cpp:14-17 *)
Definition soft (lambda beta : T) : T :=
  nmax n0 (beta - lambda) - nmax n0 (- beta - lambda).

(** A^T A + lambda I and A^T y (ridge.cpp:13-15) *)
Definition ridge_matrix (lambda : T) (A : list (list T)) : list (list T) :=
  let C := columns A in
  map (fun i => map (fun j =>
    dot (nth i C []) (nth j C []) + lambda * (if Nat.eqb i j then n1 else n0))
    (seq 0 (length C))) (seq 0 (length C)).
Definition ridge_rhs (A : list (list T)) (y : list T) : list T :=
  map (fun c => dot c y) (columns A).

(** solve: least_squares.cpp:7-9, ridge.cpp:12-16, lasso.cpp:12-18 *)
Definition solve (la : LinAlg) (r : Regression) (A : list (list T)) (y : list T) : outcome (list T) :=
  match r with
  | LeastSquares => Ok (la_svd la A y)
  | Ridge lambda => Ok (la_ldlt la (ridge_matrix lambda A) (ridge_rhs A y))
  | Lasso lambda => Ok (map (soft lambda) (la_svd la A y))
  | CustomRegression f => f A y
  end.

End Regression.
Arguments LinAlg T : clear implicits.
Arguments Basis T : clear implicits.
Arguments Regression T : clear implicits.
