(** Specification of the Python operators on functions over the reals.  It
    names objects, operators and values, no overloads, no method tables. *)
From Coquelicot Require Import Coquelicot.
From Coq Require Import List Reals.
From Verif Require Import Num Outcome FunModel FunSpec BindModel.
Import ListNotations.
Local Open Scope R_scope.

(** Python's class of an elemental function; an [LExt] leaf is a GSpline,
    an [LPy] leaf an object of a Python class derived from Function. *)
Definition leaf_class (l : leaf) : pclass :=
  match l with
  | LConst _ => KConstFunction
  | LDil _ => KDomainLinearDilation
  | LIdentity => KIdentity
  | LExp => KExponential
  | LCos => KCos
  | LSin => KSin
  | LPoly _ => KCanonicPolynomial
  | LExt _ _ => KGSpline
  | LPy _ _ => KFunction
  end.
Definition py_leaf (d : R * R) (l : leaf) : pobj R := PF (leaf_class l) (leaf_fn d l).

(** The three kinds of classes: what is derived from Function, the
    expressions, and the rest (FunctionBase itself and splines). *)
Inductive kind := Plain | Expression | Opaque.
Definition kind_of (k : pclass) : kind :=
  match k with
  | KFunctionExpression => Expression
  | KFunctionBase | KGSplineBase | KGSpline => Opaque
  | _ => Plain
  end.
Definition plain (a : pobj R) : Prop :=
  match a with PF k _ => kind_of k = Plain | PForeign => False end.

(** Which pairs of classes an operation takes. *)
Definition takes (m : mname) (k k' : pclass) : Prop :=
  match m with
  | Mdot => True
  | Mcompose | Mconcat => kind_of k = Opaque \/ kind_of k' <> Opaque
  | Madd | Msub | Mmul => kind_of k <> Opaque /\ kind_of k' <> Opaque
  end.

(** When two functions may be combined. *)
Definition compatible (m : mname) (d1 d2 : R * R) (c1 c2 : nat) : Prop :=
  match m with
  | Mdot => True
  | Mcompose => (c2 <= 1)%nat
  | Mconcat => c1 = c2 /\ Rabs (snd d1 - fst d2) <= 1 / 1000000000
  | Madd | Msub => close d1 d2 /\ c1 = c2
  | Mmul => close d1 d2 /\ (c1 <= 1 \/ c2 <= 1)%nat
  end.

(** both objects report the same domain, to within the library's tolerance *)
Definition same_interval (a b : pobj R) : Prop :=
  exists d1 d2, py_domain a = Some d1 /\ py_domain b = Some d2 /\ close d1 d2.

(** [pymeans s a F]: the Python object [a], obtained from constructors and
    operators, is meant to compute [F].  With [s = true] it is moreover smooth:
    no concatenation, no class written in Python (C76), splines smooth, operands of dot products on one domain. *)
Inductive pymeans (dbg : bool) (s : bool) : pobj R -> (R -> list R) -> Prop :=
| YLeaf d l : leaf_ok l -> (s = true -> leaf_smooth l /\ ~ is_py l) -> pymeans dbg s (py_leaf d l) (lsem l)
| YZero d c : (1 <= c)%nat -> pymeans dbg s (py_zero d c) (fun _ => repeat 0 c)
| YAdd a b r F G : pymeans dbg s a F -> pymeans dbg s b G -> py_binary dbg Madd a b = Ok r ->
    pymeans dbg s r (fun t => zip_with Rplus (F t) (G t))
| YSub a b r F G : pymeans dbg s a F -> pymeans dbg s b G -> plain b ->
    py_binary dbg Msub a b = Ok r ->
    pymeans dbg s r (fun t => zip_with Rminus (F t) (G t))
| YMul a b r F G : pymeans dbg s a F -> pymeans dbg s b G -> py_binary dbg Mmul a b = Ok r ->
    pymeans dbg s r (fun t => vprod (F t) (G t))
| YNeg a r F : pymeans dbg s a F -> plain a -> py_neg a = Ok r ->
    pymeans dbg s r (fun t => map Ropp (F t))
| YCompose a b r F G : pymeans dbg s a F -> pymeans dbg s b G ->
    py_binary dbg Mcompose a b = Ok r ->
    pymeans dbg s r (fun t => F (first_comp (G t)))
| YDot a b r F G : pymeans dbg s a F -> pymeans dbg s b G -> py_codom a = py_codom b ->
    (s = true -> same_interval a b) -> py_binary dbg Mdot a b = Ok r ->
    pymeans dbg s r (fun t => [inner (F t) (G t)])
| YNewDot a b r F G : pymeans dbg s a F -> pymeans dbg s b G -> py_codom a = py_codom b ->
    (s = true -> same_interval a b) -> py_new_dot dbg a b = Ok r ->
    pymeans dbg s r (fun t => [inner (F t) (G t)])
| YConcat a b r F G d1 d2 : s = false ->
    pymeans dbg s a F -> pymeans dbg s b G -> py_binary dbg Mconcat a b = Ok r ->
    py_domain a = Some d1 -> py_domain b = Some d2 ->
    snd d1 = fst d2 -> fst d1 < snd d1 -> fst d2 < snd d2 ->
    pymeans dbg s r (piecewise d1 d2 F G)
| YDeriv k a r F G c : pymeans dbg true a F -> py_deriv dbg a k = Some (Ok r) ->
    py_codom a = Some c -> (forall t, length (G t) = c) ->
    (forall j, nth_derivative k (fun t => nth j (F t) 0) (fun t => nth j (G t) 0)) ->
    pymeans dbg s r G.

(** The C++ object fits the class: expressions, and only they, are
    FunctionExpression objects. *)
Definition fits (k : pclass) (f : fn R) : Prop :=
  match f with FExpr _ _ _ _ => k = KFunctionExpression | _ => k <> KFunctionExpression end.

(** the domain that the result of an operation should report *)
Definition result_domain (m : mname) (d1 d2 d : R * R) : Prop :=
  match m with
  | Mdot | Madd | Msub => d = d1
  | Mmul => d = d1 \/ d = d2
  | Mcompose => d = d2
  | Mconcat => d = (fst d1, snd d2)
  end.
