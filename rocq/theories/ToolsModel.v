(** Model of gsplines::tools (src/Tools.cpp).  The globals [last_error] and
    [last_relative_error] are written there and read by no library code; they are left out here and modelled in ReportModel. *)
From Coq Require Import List Arith Bool ZArith.
From Verif Require Import Num Outcome LinAlg.
Import ListNotations.
Local Open Scope num_scope.

Section Tools.
Context {T : Type} `{Num T}.

(** approx_equal(double, double, double), Tools.cpp 8-21 *)
Definition approx_eq (lhs rhs tol : T) : bool :=
  let err := nabs (lhs - rhs) in
  let lhs_abs := nabs lhs in
  let rhs_abs := nabs rhs in
  if (lhs_abs <? tol) || (rhs_abs <? tol) then err <? tol
  else (err <? lhs_abs * tol) && (err <? rhs_abs * tol).

(** std::max; [a.maxCoeff()] of Eigen is a fold of it over the coefficients
    (column by column), starting from the first one; an empty array is an
    Eigen assertion *)
(* source: maxCoeff in src/Tools.cpp 32-34, 70 *)
Definition nmax (a b : T) : T := if a <? b then b else a.
(* source: maxCoeff in src/Tools.cpp 32-34, 70 *)
Definition maxcoeff (r c : nat) (f : nat -> nat -> outcome T) : outcome T :=
  x <- (if Nat.eqb r 0 || Nat.eqb c 0 then UB else f 0%nat 0%nat) ;;
  for_ 0 c (fun j acc => for_ 0 r (fun i acc => y <- f i j ;; Ok (nmax acc y)) acc) x.

(** approx_equal(MatrixXd, MatrixXd, double), Tools.cpp 23-44 *)
Definition approx_eq_mat (a b : mat T) (tol : T) : outcome bool :=
  if negb (Nat.eqb (mrows a) (mrows b) && Nat.eqb (mcols a) (mcols b)) then Ok false
  else if Nat.eqb (mrows a * mcols a) 0 then Ok true
  else
    err <- maxcoeff (mrows a) (mcols a) (fun i j => x <- mread a i j ;; y <- mread b i j ;; Ok (nabs (x - y))) ;;
    lhs_max <- maxcoeff (mrows a) (mcols a) (fun i j => x <- mread a i j ;; Ok (nabs x)) ;;
    rhs_max <- maxcoeff (mrows b) (mcols b) (fun i j => x <- mread b i j ;; Ok (nabs x)) ;;
    Ok (if (lhs_max <? tol) || (rhs_max <? tol) then err <? tol
        else (err / lhs_max <? tol) && (err / rhs_max <? tol)).

(** a VectorXd where a MatrixXd is expected *)
(* source: calls with a VectorXd, src/Tools.cpp 46-54 *)
Definition vmat (v : vec T) : mat T := mkmat (vlen v) 1 (fun i _ => vget v i).
(* source: src/Tools.cpp 23-44 on vectors *)
Definition approx_eq_vec (a b : vec T) (tol : T) : outcome bool := approx_eq_mat (vmat a) (vmat b) tol.

(** approx_zero, Tools.cpp 56-75 *)
Definition approx_zero (x tol : T) : bool := nabs x <? tol.
(* source: src/Tools.cpp 65-75 *)
Definition approx_zero_mat (a : mat T) (tol : T) : outcome bool :=
  if Nat.eqb (mrows a * mcols a) 0 then Ok false
  else m <- maxcoeff (mrows a) (mcols a) (fun i j => x <- mread a i j ;; Ok (nabs x)) ;; Ok (m <? tol).

(** 10^-k as written in the sources (1.0e-6, ...) *)
(* source: literals such as src/Basis/Basis.cpp 230 *)
Definition ten_m (k : nat) : T := n1 / npown (nofZ 10%Z) k.
End Tools.
