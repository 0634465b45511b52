(** Bases that are defined in Python, and the pointers to bases that splines, interpolators and norms own
    (bindings/pybasis.hpp 21-66, bindings/bindings.cpp 28-58, 100-118, 341-382; the constructors of src/GSpline.cpp 15-33, 42-64,
    src/Interpolator.cpp 9-45, src/FunctionalAnalysis/Sobolev.cpp 9-17). *)
From Coq Require Import List Arith Bool.
From Verif Require Import Num Outcome LinAlg BasisModel GSplineModel InterpModel SobolevModel.
Import ListNotations.

Section PyBasis.
Context {T : Type} `{Num T}.

(** An instance of a Python class that derives from Basis.  A method that the class does not define is [None]; a method that raises
    is [Throw].  The dimension is the first argument of the constructor. *)
(* source: bindings/pybasis.hpp 21-63, bindings/bindings.cpp 30 *)
Record pybasis := mkpb {
  pb_dim : nat;
  pb_eval : option (T -> T -> vec T -> outcome (vec T));
  pb_eval_deriv : option (T -> T -> nat -> vec T -> outcome (vec T));
  pb_eval_deriv_tau : option (T -> T -> nat -> vec T -> outcome (vec T))
}.
(* source: the subclasses of include/gsplines/Basis/Basis.hpp: BasisLegendre, BasisLagrange, Basis0101, PyBasis *)
Inductive abasis := Cpp (b : basis T) (s : bstate T) | Py (p : pybasis).

(* source: include/gsplines/Basis/Basis.hpp 97 *)
Definition a_dim (b : abasis) : nat := match b with Cpp b _ => b_dim b | Py p => pb_dim p end.
(** [PYBIND11_OVERRIDE_PURE]: the Python method, or the exception "Tried to call pure virtual function" *)
(* source: bindings/pybasis.hpp 25-63 *)
Definition override {A} (f : option A) : outcome A := match f with Some f => Ok f | None => Throw RuntimeError end.
(* source: bindings/pybasis.hpp 25-29, bindings/bindings.cpp 34 *)
Definition a_eval (b : abasis) (s tau : T) (buff : vec T) : outcome (vec T) :=
  match b with Cpp b _ => b_eval b s tau buff | Py p => f <- override (pb_eval p) ;; f s tau buff end.
(* source: bindings/pybasis.hpp 30-36, bindings/bindings.cpp 35-36 *)
Definition a_eval_deriv (b : abasis) (s tau : T) (deg : nat) (buff : vec T) : outcome (vec T) :=
  match b with Cpp b _ => b_eval_deriv b s tau deg buff | Py p => f <- override (pb_eval_deriv p) ;; f s tau deg buff end.
(* source: bindings/pybasis.hpp 38-45, bindings/bindings.cpp 37-38 *)
Definition a_eval_deriv_tau (b : abasis) (s tau : T) (deg : nat) (buff : vec T) : outcome (vec T) :=
  match b with Cpp b _ => b_eval_deriv_tau b s tau deg buff | Py p => f <- override (pb_eval_deriv_tau p) ;; f s tau deg buff end.

(** [unique_ptr<Basis>]: [None] is the null pointer *)
(* source: include/gsplines/GSpline.hpp 32, include/gsplines/Interpolator.hpp 12 *)
Definition ptr := option abasis.
(* source: include/gsplines/Basis/BasisLegendre.hpp 42-44, BasisLagrange.hpp 55-57, src/Basis/Basis0101.cpp 147-149, bindings/pybasis.hpp 64 *)
Definition a_clone (b : abasis) : ptr := match b with Cpp b s => Some (Cpp b (bs_copy s)) | Py _ => None end.
(** [p->...] *)
(* source: operator-> of unique_ptr; a null pointer is undefined behaviour *)
Definition deref (p : ptr) : outcome abasis := of_option p.

(** the members of a spline, GSpline.hpp 29-33 *)
(* source: include/gsplines/GSpline.hpp 29-33 *)
Record pspline := mkps { ps_dom : T * T; ps_codom : nat; ps_coef : vec T; ps_tau : vec T; ps_basis : ptr; ps_buf : vec T }.
(** The buffer is sized with the dimension of the clone before the number of coefficients is checked. *)
(* source: src/GSpline.cpp 42-64, bindings/bindings.cpp 361-366 *)
Definition ps_new (dom : T * T) (codom n : nat) (b : abasis) (coef tau : vec T) : outcome pspline :=
  let p := a_clone b in
  q <- deref p ;;
  let buf := vnew (a_dim q) in
  q <- deref p ;;
  if Nat.eqb (vlen coef) (n * a_dim q * codom) then Ok (mkps dom codom coef tau p buf) else Throw InvalidArgument.
(* source: src/GSpline.cpp 15-33 *)
Definition ps_copy (g : pspline) : outcome pspline :=
  b <- deref (ps_basis g) ;;
  let p := a_clone b in
  q <- deref p ;;
  let buf := vnew (a_dim q) in
  q <- deref p ;;
  if Nat.eqb (vlen (ps_coef g)) (vlen (ps_tau g) * a_dim q * ps_codom g)
  then Ok (mkps (ps_dom g) (ps_codom g) (ps_coef g) (ps_tau g) p buf) else Throw InvalidArgument.
(** Python receives None for a null pointer *)
(* source: bindings/bindings.cpp 115-117 *)
Definition ps_get_basis (g : pspline) : outcome ptr := b <- deref (ps_basis g) ;; Ok (a_clone b).
(** The sizes in the initialiser list come from the argument, those in the body from the clone.  Only the pointer and the sizes are
    kept here. *)
(* source: src/Interpolator.cpp 9-45 *)
Record pinterp := mkpi { pi_basis : ptr; pi_codom : nat; pi_n : nat; pi_size : nat }.
(* source: src/Interpolator.cpp 9-45, bindings/bindings.cpp 347-349 *)
Definition pi_new (codom n : nat) (b : abasis) : outcome pinterp :=
  let p := a_clone b in
  let size := (a_dim b * codom * n)%nat in
  q <- deref p ;;
  if negb (Nat.eqb (a_dim q mod 2) 0) then Throw InvalidArgument
  else if Nat.ltb (a_dim q) 2 then UB
  else Ok (mkpi p codom n size).
(** The norm clones the basis for itself and hands the argument on to its interpolator. *)
(* source: src/FunctionalAnalysis/Sobolev.cpp 9-17, bindings/bindings.cpp 377-382 *)
Definition pn_new (wp : mat T) (b : abasis) : outcome (ptr * pinterp) :=
  let p := a_clone b in
  n <- of_option (usub1 (mrows wp)) ;;
  ip <- pi_new (mcols wp) n b ;;
  Ok (p, ip).

(** ** Python programs *)
(* source: no code of its own: the calls that bindings/bindings.cpp 28-58, 100-118, 341-382 offer *)
Inductive pstmt :=
| PCpp (b : basis T) (s : bstate T)             (** [b = BasisLegendre(6)] and the like *)
| PDefine (p : pybasis)                         (** [b = MyBasis(...)] *)
| PNew (i : nat) (dom : T * T) (codom n : nat) (coef tau : vec T)  (** [g = GSpline(dom, codom, n, b, coef, tau, name)] *)
| PInterp (i : nat) (codom n : nat)             (** [Interpolator(codom, n, b)] *)
| PNorm (i : nat) (wp : mat T)                  (** [SobolevNorm(wp, b, weights)] *)
| PCopy (j : nat)                               (** a copy of a spline, as made when it enters an expression *)
| PGetBasis (j : nat).                          (** [b = g.get_basis()] *)
(* source: no code of its own: the Python variables *)
Record pstate := mkpst { pt_bases : list ptr; pt_splines : list pspline }.
(** An unknown name and None where a Basis is expected are Python exceptions. *)
(* source: conversion of arguments to [Basis&], bindings/bindings.cpp 103, 348, 364, 379 *)
Definition arg (st : pstate) (i : nat) : outcome abasis :=
  match nth_error (pt_bases st) i with Some (Some b) => Ok b | _ => Throw TypeError end.
(* source: no code of its own: naming a variable *)
Definition spl (st : pstate) (j : nat) : outcome pspline :=
  match nth_error (pt_splines st) j with Some g => Ok g | None => Throw TypeError end.
(* source: no code of its own: one call, bindings/bindings.cpp 28-58, 100-118, 341-382 *)
Definition pexec (st : pstate) (s : pstmt) : outcome pstate :=
  match s with
  | PCpp b s => Ok (mkpst (pt_bases st ++ [Some (Cpp b s)]) (pt_splines st))
  | PDefine p => Ok (mkpst (pt_bases st ++ [Some (Py p)]) (pt_splines st))
  | PNew i dom codom n coef tau =>
    b <- arg st i ;; g <- ps_new dom codom n b coef tau ;; Ok (mkpst (pt_bases st) (pt_splines st ++ [g]))
  | PInterp i codom n => b <- arg st i ;; _ <- pi_new codom n b ;; Ok st
  | PNorm i wp => b <- arg st i ;; _ <- pn_new wp b ;; Ok st
  | PCopy j => g <- spl st j ;; g' <- ps_copy g ;; Ok (mkpst (pt_bases st) (pt_splines st ++ [g']))
  | PGetBasis j => g <- spl st j ;; p <- ps_get_basis g ;; Ok (mkpst (pt_bases st ++ [p]) (pt_splines st))
  end.
(* source: no code of its own: statements in order *)
Fixpoint prun (st : pstate) (l : list pstmt) : outcome pstate :=
  match l with [] => Ok st | s :: l' => st' <- pexec st s ;; prun st' l' end.
(* source: no code of its own: before the first statement *)
Definition pstart : pstate := mkpst [] [].
End PyBasis.
Arguments pybasis T : clear implicits.
Arguments abasis T : clear implicits.
Arguments ptr T : clear implicits.
Arguments pspline T : clear implicits.
Arguments pinterp T : clear implicits.
Arguments pstmt T : clear implicits.
Arguments pstate T : clear implicits.
