(** Model of LinearFunctional objects (include/gsplines/Collocation/GaussLobattoLagrangeFunctionals.hpp 14-200): the component count kept
    by the base class beside the matrix, the three matrix types in use, expressions of functionals, [set].

    Simplifications: objects are values; a binary operator whose result type cannot hold the sum or product (a sparse left operand with
    a dense right one) is rejected by the compiler (Eigen has no conversion of a dense
    expression to a sparse matrix), the model gives it a value anyway. *)
From Coq Require Import List Arith Bool ZArith.
From Verif Require Import Num Outcome LinAlg LegendreModel LagrangeModel Basis0101Model BasisModel ToolsModel FunModel GSplineModel GLModel GLLModel GLFModel.
Import ListNotations.
Local Open Scope num_scope.

(* source: include/gsplines/Collocation/GaussLobattoLagrangeFunctionals.hpp 202-204, 419: MatrixXd, SparseMatrix, SparseMatrix RowMajor *)
Inductive lkind := KDense | KSparse | KSparseRow.
(* source: include/gsplines/Collocation/GaussLobattoLagrangeFunctionals.hpp 76, 79-80: is_same<MatrixXd, .> *)
Definition is_dense (k : lkind) : bool := match k with KDense => true | _ => false end.

Section LF.
Context {T : Type} `{Num T}.

(* source: include/gsplines/Collocation/GaussLobattoLagrangeFunctionals.hpp 17, 46, 56 *)
Record lfun := mklfun { lo_codom : nat; lo_kind : lkind; lo_mat : mat T }.
(** constructor from a matrix, 57-61: the component count is the number of rows *)
(* source: include/gsplines/Collocation/GaussLobattoLagrangeFunctionals.hpp 57-61 *)
Definition lo_make (k : lkind) (m : mat T) : lfun := mklfun (mrows m) k m.
(** copy and move constructors, 63-68; differential, 181-184, is a copy *)
(* source: include/gsplines/Collocation/GaussLobattoLagrangeFunctionals.hpp 63-68 *)
Definition lo_copy (o : lfun) : lfun := mklfun (lo_codom o) (lo_kind o) (lo_mat o).
(* source: include/gsplines/Collocation/GaussLobattoLagrangeFunctionals.hpp 181-184 *)
Definition lo_differential (o : lfun) : lfun := lo_copy o.
(** set, 75-116: the matrix only; dense into sparse is not implemented *)
(* source: include/gsplines/Collocation/GaussLobattoLagrangeFunctionals.hpp 75-116 *)
Definition lo_set (o other : lfun) : outcome lfun :=
  match is_dense (lo_kind o), is_dense (lo_kind other) with
  | true, true | false, false | true, false => Ok (mklfun (lo_codom o) (lo_kind o) (lo_mat other))
  | false, true => Throw RuntimeError
  end.
(** operator(), 138-141 *)
(* source: include/gsplines/Collocation/GaussLobattoLagrangeFunctionals.hpp 138-141 *)
Definition lo_call (o : lfun) (g : gspline T) : outcome (vec T) := lf_call (lo_mat o) g.
(** to_dense_matrix 157-166, to_sparse_matrix 168-179: the values *)
(* source: include/gsplines/Collocation/GaussLobattoLagrangeFunctionals.hpp 157-179 *)
Definition lo_values (o : lfun) : mat T := lo_mat o.

(** expressions of functionals *)
(* source: include/gsplines/Collocation/GaussLobattoLagrangeFunctionals.hpp 118-136, 189-200 *)
Inductive lexpr := LObj (o : lfun) | LMul (a b : lexpr) | LAdd (a b : lexpr) | LSub (a b : lexpr) | LNeg (a : lexpr) | LScale (x : T) (a : lexpr).
(** the matrix type of the result is that of the left operand *)
(* source: include/gsplines/Collocation/GaussLobattoLagrangeFunctionals.hpp 118-136, 189-200 *)
Fixpoint lkind_of (e : lexpr) : lkind :=
  match e with LObj o => lo_kind o | LMul a _ | LAdd a _ | LSub a _ => lkind_of a | LNeg a | LScale _ a => lkind_of a end.
(** the operators: *, + and - build an object from the resulting matrix, unary - and the factor copy the operand first *)
(* source: include/gsplines/Collocation/GaussLobattoLagrangeFunctionals.hpp 118-136, 189-200 *)
Fixpoint leval (e : lexpr) : outcome lfun :=
  match e with
  | LObj o => Ok o
  | LMul a b => x <- leval a ;; y <- leval b ;; m <- lf_mul (lo_mat x) (lo_mat y) ;; Ok (lo_make (lo_kind x) m)
  | LAdd a b => x <- leval a ;; y <- leval b ;; m <- lf_add (lo_mat x) (lo_mat y) ;; Ok (lo_make (lo_kind x) m)
  | LSub a b => x <- leval a ;; y <- leval b ;; m <- lf_sub (lo_mat x) (lo_mat y) ;; Ok (lo_make (lo_kind x) m)
  | LNeg a => x <- leval a ;; Ok (mklfun (lo_codom (lo_copy x)) (lo_kind x) (lf_neg (lo_mat x)))
  | LScale c a => x <- leval a ;; Ok (mklfun (lo_codom (lo_copy x)) (lo_kind x) (lf_scale c (lo_mat x)))
  end.

(** Integral::update(domain, nglp, n), .cpp 69-73: the row of weights of another grid *)
(* source: src/Collocation/GaussLobattoLagrangeFunctionals.cpp 69-73 *)
Definition int_regrid (o : lfun) (dom : T * T) (nglp n : nat) : outcome lfun :=
  m <- int_ctor dom nglp n ;; Ok (mklfun (lo_codom o) (lo_kind o) m).
(* source: src/Collocation/GaussLobattoLagrangeFunctionals.cpp 58-63 *)
Definition int_obj (dom : T * T) (nglp n : nat) : outcome lfun :=
  m <- int_ctor dom nglp n ;; Ok (lo_make KDense m).
End LF.
Arguments lfun : clear implicits.
Arguments lexpr : clear implicits.
