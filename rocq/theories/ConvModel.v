(** Making a collocation spline out of another spline (src/Collocation/GaussLobattoLagrange.cpp 41-53,
    include/gsplines/Collocation/GaussLobattoLagrange.hpp 77-78, 97-101). *)
From Coq Require Import List Arith Bool.
From Verif Require Import Num Outcome LinAlg BasisModel GSplineModel GLLModel.

Section Conv.
Context {T : Type} `{Num T}.
(** The copy and move constructors and the conversions from GSpline.  All four hand their argument to a constructor of GSplineBase;
    what its basis is does not matter to them.  [rv]: the argument is an rvalue. *)
(* source: src/Collocation/GaussLobattoLagrange.cpp 41-53, include/gsplines/Functions/FunctionInheritanceHelper.hpp 11-15, src/GSpline.cpp 15-40 *)
Definition gll_from (rv : bool) (g : gspline T) : outcome (gspline T) := if rv then Ok (gs_move g) else gs_copy g.
(** The constructors inherited from GSplineBase take any basis. *)
(* source: include/gsplines/Collocation/GaussLobattoLagrange.hpp 77-78, include/gsplines/GSpline.hpp 45-54, src/GSpline.cpp 42-89 *)
Definition gll_with (dom : T * T) (codom n : nat) (b : basis T) (s : bstate T) (coef tau : vec T) : outcome (gspline T) :=
  gs_ctor dom codom n b s coef tau.
End Conv.
