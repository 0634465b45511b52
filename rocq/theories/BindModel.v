(** Model of what Python sees of [gsplines::functions] through
    bindings/bindings.cpp: classes, methods, overloads.

    Conventions.
    - A Python object is [PF k f]: its class [k] and the C++ object [f] it
      holds; [PForeign] is an object of a class that this module does not
      register and that defines none of the methods below (a float, None, ...).
    - pybind11 looks a method up along the base classes of the object's class.
      The first class that defines the name wins and hides the overloads of its
      bases.  The overloads of that class are tried in the order of the [def]
      calls, and one is chosen when the argument is an instance of its parameter
      class; no implicit conversion is registered.  When none fits, the call
      raises TypeError; with py::is_operator it returns NotImplemented, and as no
      class defines a reflected operator Python then raises TypeError as well.
    - A C++ exception thrown by the chosen overload passes through
      (std::invalid_argument becomes ValueError).
    - Classes written in Python that inherit from Function, FunctionBase or
      GSplineBase (trampolines, bindings/pyfunctions.hpp) are not modelled. *)
From Coq Require Import List Arith Bool.
From Verif Require Import Num Outcome GSplineModel FunModel.
Import ListNotations.

(* source: the py::class_ declarations, bindings/bindings.cpp 71-97, 99-116, 118-122, 190-192, 273-311, 353-354 *)
Inductive pclass :=
| KFunctionBase | KFunctionExpression | KFunction
| KExponential | KConstFunction | KCos | KDomainLinearDilation | KIdentity | KSin
| KCanonicPolynomial | KDotProduct
| KGSplineBase | KGSpline.

(* source: identity of Python classes *)
Definition pclass_eqb (a b : pclass) : bool :=
  match a, b with
  | KFunctionBase, KFunctionBase | KFunctionExpression, KFunctionExpression
  | KFunction, KFunction | KExponential, KExponential | KConstFunction, KConstFunction
  | KCos, KCos | KDomainLinearDilation, KDomainLinearDilation | KIdentity, KIdentity
  | KSin, KSin | KCanonicPolynomial, KCanonicPolynomial | KDotProduct, KDotProduct
  | KGSplineBase, KGSplineBase | KGSpline, KGSpline => true
  | _, _ => false
  end.

(** the class and its bases, most derived first *)
(* source: base classes given to py::class_, bindings/bindings.cpp 71-74, 99-100, 118-120, 190-191, 273-311, 353-354 *)
Definition mro (k : pclass) : list pclass :=
  match k with
  | KFunctionBase => [KFunctionBase]
  | KFunctionExpression => [KFunctionExpression; KFunctionBase]
  | KFunction => [KFunction; KFunctionBase]
  | KExponential => [KExponential; KFunction; KFunctionBase]
  | KConstFunction => [KConstFunction; KFunction; KFunctionBase]
  | KCos => [KCos; KFunction; KFunctionBase]
  | KDomainLinearDilation => [KDomainLinearDilation; KFunction; KFunctionBase]
  | KIdentity => [KIdentity; KDomainLinearDilation; KFunction; KFunctionBase]
  | KSin => [KSin; KFunction; KFunctionBase]
  | KCanonicPolynomial => [KCanonicPolynomial; KFunction; KFunctionBase]
  | KDotProduct => [KDotProduct; KFunction; KFunctionBase]
  | KGSplineBase => [KGSplineBase; KFunctionBase]
  | KGSpline => [KGSpline; KGSplineBase; KFunctionBase]
  end.

(* source: the argument loader of pybind11 for a registered class *)
Definition isinstance (k c : pclass) : bool := existsb (pclass_eqb c) (mro k).

(** names of the methods with one function argument; the last three are
    reached through the operators +, -, * *)
(* source: bindings/bindings.cpp 83-97, 123-188, 202-264 *)
Inductive mname := Mdot | Mcompose | Mconcat | Madd | Msub | Mmul.

Section Bind.
Context {T : Type} `{Num T}.
Variable dbg : bool.

(* source: Python objects holding a C++ function *)
Inductive pobj := PF (k : pclass) (f : fn T) | PForeign.

(** [const FunctionExpression&] parameter: the object itself, an lvalue.  An
    object registered as FunctionExpression that is no FunctionExpression does
    not exist; reading one would be undefined. *)
(* source: bindings/bindings.cpp 125-126 *)
Definition as_expression (f : fn T) : outcome (expr T) :=
  match f with
  | FExpr ty d c args => Ok (mkexpr ty d c args)
  | _ => UB
  end.

(** A virtual binary operator called on an lvalue: FunctionExpression overrides
    it (FunctionExpression.hpp 91-136), FunctionBase's version makes a temporary
    expression of the object and calls the rvalue overload on that
    (FunctionBase.cpp 104-225).  [rv]: the argument is an rvalue. *)
(* source: src/Functions/FunctionBase.cpp 104-225, include/gsplines/Functions/FunctionExpression.hpp 91-136 *)
Definition virtual_op (op : vcat -> expr T -> expr T -> outcome (expr T))
    (self : fn T) (rv : bool) (that : expr T) : outcome (expr T) :=
  match self with
  | FExpr ty d c args => op (if rv then LR else LL) (mkexpr ty d c args) that
  | _ => op (if rv then RR else RL) (to_expression self) that
  end.

(** the result is returned by value and wrapped as a FunctionExpression *)
(* source: return of a FunctionExpression, bindings/bindings.cpp 123-264 *)
Definition ret_expression (r : outcome (expr T)) : outcome pobj :=
  e <- r ;; Ok (PF KFunctionExpression (fe e)).

(** overload taking [const FunctionExpression&] *)
(* source: bindings/bindings.cpp 125-158, 212-241 *)
Definition with_expression op (self that : fn T) : outcome pobj :=
  e <- as_expression that ;; ret_expression (virtual_op op self false e).
(** overload taking [const Function&]: C++ converts the argument to a temporary
    FunctionExpression (FunctionExpression.cpp 81-86), an rvalue *)
(* source: bindings/bindings.cpp 167-188, 245-264, src/Functions/FunctionExpression.cpp 81-86 *)
Definition with_function op (self that : fn T) : outcome pobj :=
  ret_expression (virtual_op op self true (to_expression that)).
(** overload taking [const FunctionBase&] and calling to_expression() on it *)
(* source: bindings/bindings.cpp 90-97 *)
Definition with_base op (self that : fn T) : outcome pobj :=
  ret_expression (virtual_op op self true (to_expression that)).
(** FunctionBase::dot(const FunctionBase&) const & and the assertion of the
    constructor of DotProduct *)
(* source: bindings/bindings.cpp 83-87, 202-211, src/Functions/FunctionBase.cpp 45-48, src/Functions/ElementalFunctions.cpp 197-203 *)
Definition make_dot (self that : fn T) : outcome pobj :=
  if dbg && negb (Nat.eqb (fcod self) (fcod that)) then Throw AssertFail
  else Ok (PF KDotProduct (dot LL self that)).

(** parameter class and body of the overloads that a class itself defines, in
    the order of the def calls *)
(* source: bindings/bindings.cpp 83-97 (FunctionBase), 123-188 (FunctionExpression), 202-264 (Function) *)
Definition own_methods (k : pclass) (m : mname)
  : list (pclass * (fn T -> fn T -> outcome pobj)) :=
  match k, m with
  | KFunctionBase, Mdot => [(KFunctionBase, make_dot)]
  | KFunctionBase, Mcompose => [(KFunctionBase, with_base compose)]
  | KFunctionBase, Mconcat => [(KFunctionBase, with_base concat_)]
  | KFunctionExpression, Mconcat =>
      [(KFunctionExpression, with_expression concat_); (KFunction, with_function concat_)]
  | KFunctionExpression, Mcompose =>
      [(KFunctionExpression, with_expression compose); (KFunction, with_function compose)]
  | KFunctionExpression, Madd =>
      [(KFunctionExpression, with_expression add); (KFunction, with_function add)]
  | KFunctionExpression, Msub =>
      [(KFunctionExpression, with_expression sub); (KFunction, with_function sub)]
  | KFunctionExpression, Mmul =>
      [(KFunctionExpression, with_expression mul); (KFunction, with_function mul)]
  | KFunction, Mdot => [(KFunctionBase, make_dot); (KFunction, make_dot)]
  | KFunction, Mconcat =>
      [(KFunctionExpression, with_expression concat_); (KFunction, with_function concat_)]
  | KFunction, Mcompose =>
      [(KFunctionExpression, with_expression compose); (KFunction, with_function compose)]
  | KFunction, Madd =>
      [(KFunctionExpression, with_expression add); (KFunction, with_function add)]
  | KFunction, Msub =>
      [(KFunctionExpression, with_expression sub); (KFunction, with_function sub)]
  | KFunction, Mmul =>
      [(KFunctionExpression, with_expression mul); (KFunction, with_function mul)]
  | _, _ => []
  end.

(** attribute lookup: the first class of the list that defines the name *)
(* source: pybind11 class_::def with sibling and scope, used in bindings/bindings.cpp 71-360 *)
Fixpoint lookup (l : list pclass) (m : mname) : list (pclass * (fn T -> fn T -> outcome pobj)) :=
  match l with
  | [] => []
  | k :: l' => match own_methods k m with [] => lookup l' m | ov => ov end
  end.

(** overload resolution of pybind11's dispatcher *)
(* source: pybind11 cpp_function::dispatcher, used in bindings/bindings.cpp 71-360 *)
Fixpoint dispatch (ov : list (pclass * (fn T -> fn T -> outcome pobj)))
    (self : fn T) (k : pclass) (that : fn T) : outcome pobj :=
  match ov with
  | [] => Throw TypeError
  | (c, body) :: ov' => if isinstance k c then body self that else dispatch ov' self k that
  end.

(** [a.m(b)], and [a + b], [a - b], [a * b] *)
(* source: bindings/bindings.cpp 83-97, 123-188, 202-264 *)
Definition py_binary (m : mname) (a b : pobj) : outcome pobj :=
  match a, b with
  | PF k f, PF k' g => dispatch (lookup (mro k) m) f k' g
  | _, _ => Throw TypeError
  end.

(** [-a] *)
(* source: bindings/bindings.cpp 159-164, 242-245, src/Functions/FunctionBase.cpp 145-151, src/Functions/FunctionMul.cpp 142-154 *)
Definition py_neg (a : pobj) : outcome pobj :=
  match a with
  | PF k f =>
      if isinstance k KFunctionExpression || isinstance k KFunction then
        match f with
        | FExpr ty d c args => Ok (PF KFunctionExpression (fe (neg (mkexpr ty d c args))))
        | _ => Ok (PF KFunctionExpression (fe (neg (to_expression f))))
        end
      else Throw TypeError
  | PForeign => Throw TypeError
  end.

(** [a(points)] *)
(* source: bindings/bindings.cpp 78, 194 *)
Definition py_call (a : pobj) (pts : list T) : outcome (rows (T:=T)) :=
  match a with PF _ f => call dbg f pts | PForeign => Throw TypeError end.

(** [a.deriv(deg)]; None: the class has no such method (AttributeError).
    - FunctionExpression: derivate of FunctionInheritanceHelper, a copy of what
      deriv_impl returns.
    - Function: the derivative of an expression made of the object.
    - GSpline: derivate, a GSpline again. *)
(* source: bindings/bindings.cpp 122-123, 265-271, 359, include/gsplines/Functions/FunctionInheritanceHelper.hpp 31-38 *)
Definition py_deriv (a : pobj) (deg : nat) : option (outcome pobj) :=
  match a with
  | PF k f =>
      if isinstance k KFunctionExpression then
        Some (g <- deriv dbg f deg ;; Ok (PF KFunctionExpression g))
      else if isinstance k KFunction then
        Some (g <- deriv dbg (fe (to_expression f)) deg ;; Ok (PF KFunctionExpression g))
      else if isinstance k KGSpline then
        Some (g <- deriv dbg f deg ;; Ok (PF KGSpline g))
      else None
  | PForeign => None
  end.

(** [get_domain], [get_codom_dim] *)
(* source: bindings/bindings.cpp 77-82, 195-199 *)
Definition py_domain (a : pobj) : option (dom T) :=
  match a with PF _ f => Some (fdom f) | PForeign => None end.
(* source: bindings/bindings.cpp 77, 195 *)
Definition py_codom (a : pobj) : option nat :=
  match a with PF _ f => Some (fcod f) | PForeign => None end.

(** FunctionExpression(domain, codom_dim): the zero function *)
(* source: bindings/bindings.cpp 121, src/Functions/FunctionExpression.cpp 36-42 *)
Definition py_zero (d : dom T) (c : nat) : pobj :=
  PF KFunctionExpression (FExpr UNIQUE d c [const_function d c n0]).
(** DotProduct(f, g): only FunctionExpression arguments are accepted *)
(* source: bindings/bindings.cpp 308-311 *)
Definition py_new_dot (a b : pobj) : outcome pobj :=
  match a, b with
  | PF k f, PF k' g =>
      if isinstance k KFunctionExpression && isinstance k' KFunctionExpression
      then make_dot f g else Throw TypeError
  | _, _ => Throw TypeError
  end.

(** *** comparisons of splines *)
(** [a == b]: [__eq__] is defined without py::is_operator, so a foreign right
    operand raises TypeError instead of comparing unequal. *)
(* source: bindings/bindings.cpp 111, src/GSpline.cpp 161-163 *)
Definition py_spline_eq (g : gspline T) (b : option (gspline T)) : outcome bool :=
  match b with Some h => gs_eqb g h | None => Throw TypeError end.
(** [a != b]: the binding is spelled [__nq__], which no operator calls; Python's
    default [__ne__] inverts what [__eq__] returns. *)
(* source: bindings/bindings.cpp 112 *)
Definition py_spline_ne (g : gspline T) (b : option (gspline T)) : outcome bool :=
  r <- py_spline_eq g b ;; Ok (negb r).
End Bind.
Arguments pobj T : clear implicits.
