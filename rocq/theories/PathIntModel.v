(** The integral of the squared norm of a path along a reparametrisation (src/Collocation/GaussLobattoLagrange.cpp 198-203). *)
From Coq Require Import List Arith Bool.
From Verif Require Import Num Outcome LinAlg FunModel GLLModel IntegralModel.

Section PathInt.
Context {T : Type} `{Num T}.
Variable dbg : bool.
(** [integral(_path.dot(_path).compose(_diffeo.to_expression()))].  The product is a temporary and so is the expression it is
    composed with; the integral is called with its default arguments, ten points on one interval. *)
(* source: src/Collocation/GaussLobattoLagrange.cpp 198-203, src/Functions/FunctionBase.cpp 49-52, 66-73, 187-189, include/gsplines/FunctionalAnalysis/Integral.hpp 9-10 *)
Definition path_integral (diffeo path : fn T) : outcome T :=
  e <- compose RR (to_expression (dot LL path path)) (to_expression diffeo) ;;
  integral dbg (fo_of_fn dbg (fe e)) 10 1.
End PathInt.
