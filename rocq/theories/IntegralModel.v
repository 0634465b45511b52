(** Model of src/FunctionalAnalysis/Integral.cpp and of the inner products and
    norms of functions in src/FunctionalAnalysis/Sobolev.cpp. *)
From Coq Require Import List Arith Bool ZArith.
From Verif Require Import Num Outcome LinAlg LegendreModel FunModel ToolsModel GSplineModel GLModel GLLModel.
Import ListNotations.
Local Open Scope num_scope.

Section Integral.
Context {T : Type} `{Num T}.
Variable dbg : bool.

(** [(local_value.array() * glw.array()).col(0).sum()], Integral.cpp 27; the order in
    which Eigen adds is not modelled, terms are added from the first to the last *)
Definition col_dot (m : mat T) (w : vec T) : outcome T :=
  if Nat.eqb (mrows m) (vlen w) && Nat.eqb (mcols m) 1 then
    for_ 0 (vlen w) (fun i s => v <- mread m i 0 ;; x <- vread w i ;; Ok (s + v * x)) n0
  else UB.

(** loop body, Integral.cpp 23-29; state (local_value, result) *)
Definition int_step (f : fobj T) (glp glw : vec T) (len : T) (iv : nat) (st : mat T * T) : outcome (mat T * T) :=
  let '(m, r) := st in
  m <- fo_val f (gl_affine glp len (fst (fo_dom f) + nofnat iv * len)) m ;;
  s <- col_dot m glw ;;
  Ok (m, r + s * len / c2).

(** integral, Integral.cpp 7-32.  With n_int = 0 the length is a division by zero
    that no iteration uses. *)
Definition integral (f : fobj T) (nglp n_int : nat) : outcome T :=
  if dbg && negb (Nat.eqb (fo_codom f) 1) then Throw AssertFail else
  let len := (snd (fo_dom f) - fst (fo_dom f)) / nofnat n_int in
  '(glp, glw) <- gl_points_weights nglp ;;
  '(_, r) <- for_ 0 n_int (int_step f glp glw len) (mnew nglp 1, n0) ;;
  Ok r.

(** FunctionBase::derivate, FunctionBase.cpp 83-90 *)
Definition derivate (f : fn T) (k : nat) : outcome (expr T) :=
  d <- deriv dbg f k ;; Ok (mkexpr UNIQUE (fdom f) (fcod f) [d]).

(** FunctionExpression(domain, codom_dim), FunctionExpression.cpp 35-41 *)
Definition zero_expression (d : T * T) (c : nat) : expr T := mkexpr UNIQUE d c [const_function d c n0].

(** one term, Sobolev.cpp 105-108: [w * lhs.derivate(k).dot(rhs.derivate(k))]; the constructor of
    DotProduct asserts equal numbers of components (ElementalFunctions.cpp 202, 208).
    [sum +=] does not check anything. *)
Definition semi_term (lhs rhs : fn T) (sum : expr T) (term : nat * T) : outcome (expr T) :=
  l <- derivate lhs (fst term) ;;
  r <- derivate rhs (fst term) ;;
  if dbg && negb (Nat.eqb (ecod l) (ecod r)) then Throw AssertFail else
  e <- scal true (snd term) (to_expression (dot FunModel.RR (fe l) (fe r))) ;;
  Ok (iadd sum e).
(* source: src/FunctionalAnalysis/Sobolev.cpp 103-108 *)
Fixpoint semi_terms (lhs rhs : fn T) (sum : expr T) (terms : list (nat * T)) : outcome (expr T) :=
  match terms with
  | [] => Ok sum
  | t :: r => s <- semi_term lhs rhs sum t ;; semi_terms lhs rhs s r
  end.

(** sobolev_semi_inner_product, Sobolev.cpp 97-111 *)
Definition sobolev_semi_inner_product (lhs rhs : fn T) (terms : list (nat * T)) (nglp n_int : nat) : outcome T :=
  sum <- semi_terms lhs rhs (zero_expression (fdom lhs) 1) terms ;;
  integral (fo_of_fn dbg (fe sum)) nglp n_int.
(** sobolev_semi_norm, 113-118 *)
(* source: src/FunctionalAnalysis/Sobolev.cpp 113-118 *)
Definition sobolev_semi_norm (f : fn T) (terms : list (nat * T)) (nglp n_int : nat) : outcome T :=
  sobolev_semi_inner_product f f terms nglp n_int.
(** the terms 0 .. deg with weight 1, 125-128, 136-139 *)
(* source: src/FunctionalAnalysis/Sobolev.cpp 125-128, 136-139 *)
Definition unit_terms (deg : nat) : list (nat * T) := map (fun i => (i, n1)) (seq 0 (deg + 1)).
(** sobolev_inner_product, 120-131 *)
(* source: src/FunctionalAnalysis/Sobolev.cpp 120-131 *)
Definition sobolev_inner_product (lhs rhs : fn T) (deg nglp n_int : nat) : outcome T :=
  sobolev_semi_inner_product lhs rhs (unit_terms deg) nglp n_int.
(** sobolev_norm, 133-142 *)
(* source: src/FunctionalAnalysis/Sobolev.cpp 133-142 *)
Definition sobolev_norm (f : fn T) (deg nglp n_int : nat) : outcome T :=
  sobolev_semi_norm f (unit_terms deg) nglp n_int.
(** l2_norm, 144-147; l2_inner_product, 149-153 *)
(* source: src/FunctionalAnalysis/Sobolev.cpp 144-147, 149-153 *)
Definition l2_norm (f : fn T) (nglp n_int : nat) : outcome T := sobolev_norm f 0 nglp n_int.
(* source: src/FunctionalAnalysis/Sobolev.cpp 149-153 *)
Definition l2_inner_product (lhs rhs : fn T) (nglp n_int : nat) : outcome T := sobolev_inner_product lhs rhs 0 nglp n_int.
End Integral.
