(** Model of [gsplines::functions]: FunctionBase, FunctionExpression, the
    elemental functions and DotProduct.

    Sources: include/gsplines/Functions/*.hpp, src/Functions/*.cpp.

    Conventions.
    - A C++ function object is a value of [fn].  [clone]/[move_clone] copy the
      object, hence are the identity here; the moved-from state of an rvalue
      operand is the subject of HeapModel.v (here no code reads it except
      [get_domain] and [get_codom_dim], which a move leaves intact,
      FunctionExpression.cpp:72-79).
    - [value(points, result)] writes into a caller-supplied matrix.  The model's
      [eval f pts cols] receives the number of columns of that matrix; its number
      of rows is always the number of points (every call in the library
      allocates it so).  Eigen size mismatches are [UB].
    - [dbg = true] is a build with assertions, [dbg = false] defines NDEBUG.
    - Names and print methods are not modelled. *)
From Coq Require Import List Arith Bool ZArith.
From Verif Require Import Num Outcome.
Import ListNotations.
Local Open Scope num_scope.

(** FunctionExpression.hpp: enum Type (EMPTY is never constructed: initialize
    throws on it, FunctionExpression.cpp:150). *)
Inductive ftype := SUM | MULTIPLICATION | COMPOSITION | CONCATENATION | UNIQUE | NEGATIVE.

(* source: comparison of Type values, include/gsplines/Functions/FunctionExpression.hpp 25-33 *)
Definition ftype_eqb (a b : ftype) : bool :=
  match a, b with
  | SUM, SUM | MULTIPLICATION, MULTIPLICATION | COMPOSITION, COMPOSITION
  | CONCATENATION, CONCATENATION | UNIQUE, UNIQUE | NEGATIVE, NEGATIVE => true
  | _, _ => false
  end.

Section Fun.
Context {T : Type} `{Num T}.
Variable dbg : bool.

(* source: domain_, include/gsplines/Functions/FunctionBase.hpp 20 *)
Definition dom := (T * T)%type.

(** Function objects.
    - [FConst], [FDil], [FExp], [FCos], [FSin], [FPoly]: ElementalFunctions.cpp.
      Identity (60-70) does not override clone_impl, so an Identity used as an
      operand is stored as a DomainLinearDilation of factor 1: [FDil d n1].
    - [FDot]: DotProduct, with its two stored expressions.
    - [FExt d c s k]: any other class derived from FunctionBase (user classes,
      GSpline): codomain [c], [s k] computes the k-th derivative object; its
      deriv_impl(m) is assumed to return the object of order [k+m].
    - [FPy d c s k]: a class written in Python, derived from FunctionBase or Function
      (bindings/pyfunctions.hpp 18-64): the trampoline deriv_impl(_deg) calls the
      Python method without the order, so every request returns the object of
      order [k+1].  Lifetimes of the Python objects are not modelled.
    - [FExpr]: FunctionExpression with type_, domain, codomain, function_array_. *)
Inductive fn :=
| FConst (d : dom) (values : list T)
| FDil (d : dom) (a : T)
| FExp (d : dom)
| FCos (d : dom)
| FSin (d : dom)
| FPoly (d : dom) (coeff : list T)
| FDot (d : dom) (f1 f2 : fn)
| FExt (d : dom) (c : nat) (s : nat -> T -> list T) (k : nat)
| FPy (d : dom) (c : nat) (s : nat -> T -> list T) (k : nat)
| FExpr (ty : ftype) (d : dom) (c : nat) (args : list fn).

(** FunctionBase::get_domain, FunctionBase.hpp:32-34 *)
Definition fdom (f : fn) : dom :=
  match f with
  | FConst d _ | FDil d _ | FExp d | FCos d | FSin d | FPoly d _
  | FDot d _ _ | FExt d _ _ _ | FPy d _ _ _ | FExpr _ d _ _ => d
  end.
(** FunctionBase::get_codom_dim, FunctionBase.hpp:36; values from the
    constructors ElementalFunctions.cpp:9,14,40,74,90,115,141,198 *)
Definition fcod (f : fn) : nat :=
  match f with
  | FConst _ v => length v
  | FDil _ _ | FExp _ | FCos _ | FSin _ | FPoly _ _ | FDot _ _ _ => 1
  | FExt _ c _ _ | FPy _ c _ _ => c
  | FExpr _ _ c _ => c
  end.

(** ElementalFunctions.cpp:12-15 *)
Definition const_function (d : dom) (codom : nat) (v : T) : fn :=
  FConst d (repeat (n1 * v) codom).
(** ElementalFunctions.cpp:61-64, see the comment of [fn]. *)
Definition identity_function (d : dom) : fn := FDil d n1.

(** FunctionBase::dom_tollerance_ = 1.0e-9, FunctionBase.cpp:11 *)
Definition dom_tol : T := n1 / nofZ 1000000000.

(** FunctionBase::is_point_in_domain, FunctionBase.cpp:41-43 *)
Definition is_point_in_domain (f : fn) (t : T) : bool :=
  (fst (fdom f) <=? t) && (t <? snd (fdom f)).

(** ** Evaluation *)

(* source: the result matrix, row i for point i; include/gsplines/Functions/FunctionBase.hpp 70-84 *)
Definition rows := list (list T).

(* source: coefficient-wise operations of Eigen *)
Definition map2 {A B C} (f : A -> B -> C) : list A -> list B -> list C :=
  fix go l1 l2 :=
    match l1, l2 with
    | a :: l1', b :: l2' => f a b :: go l1' l2'
    | _, _ => []
    end.

(** [_result += temp] *)
(* source: src/Functions/FunctionSum.cpp 114 *)
Definition rows_add (a b : rows) : rows := map2 (map2 nadd) a b.
(** [_result.array().colwise() *= temp.col(0).array()] *)
(* source: src/Functions/FunctionMul.cpp 213 *)
Definition rows_colwise_mul (a : rows) (t : rows) : rows :=
  map2 (fun r tr => map (fun x => x * hd n0 tr) r) a t.
(** [_result *= -1.0] *)
(* source: src/Functions/FunctionExpression.cpp 237 *)
Definition rows_neg (a : rows) : rows := map (map (fun x => x * (- n1))) a.
(** [_result.setZero()] *)
(* source: src/Functions/FunctionSum.cpp 111 *)
Definition rows_zero (n c : nat) : rows := repeat (repeat n0 c) n.

(** column vector of values as a result matrix, with Eigen's size check *)
(* source: src/Functions/ElementalFunctions.cpp 46-165, the assignments [_result = ...] *)
Definition col_result (cols : nat) (l : list T) : outcome rows :=
  if Nat.eqb cols 1 then Ok (map (fun x => [x]) l) else UB.

(** ConstFunction::value_impl, ElementalFunctions.cpp:20-28 *)
Definition eval_const (v : list T) (pts : list T) (cols : nat) : outcome rows :=
  if Nat.eqb cols (length v) then Ok (map (fun _ => map (fun x => n1 * x) v) pts) else UB.

(** CanonicPolynomial::value_impl, ElementalFunctions.cpp:156-165.
    With an empty coefficient vector coefficients_[-1] is read (UB); with one
    coefficient no size check happens. *)
Definition eval_poly (coeff : list T) (pts : list T) (cols : nat) : outcome rows :=
  match rev coeff with
  | [] => UB
  | cl :: rest =>
    match rest with
    | [] => Ok (map (fun _ => repeat cl cols) pts)
    | _ => if Nat.eqb cols 1
           then Ok (map (fun t => [fold_left (fun r c => r * t + c) rest cl]) pts)
           else UB
    end
  end.

(** [(f1_res.array() * f2_res.array()).rowwise().sum()] *)
(* source: src/Functions/ElementalFunctions.cpp 231 *)
Definition row_dot (a b : list T) : T := fold_left nadd (map2 nmul a b) n0.

(** value_impl of every class.
    - eval_sum_functions, FunctionSum.cpp:105-118
    - eval_mul_functions, FunctionMul.cpp:199-215 (file lines)
    - eval_compose_functions, FunctionsComp.cpp:162-186
    - get_interval_function / eval_concat_functions, FunctionsConcat.cpp:140-155,183-222
    - eval_unique_functions, eval_negative_functions, FunctionExpression.cpp:204-238
    - DotProduct::value_impl, ElementalFunctions.cpp:224-232
    - others: ElementalFunctions.cpp:45-49, 79-83, 94-97, 119-122 *)
Fixpoint eval (f : fn) (pts : list T) (cols : nat) {struct f} : outcome rows :=
  match f with
  | FConst _ v => eval_const v pts cols
  | FDil _ a => col_result cols (map (fun t => a * t) pts)
  | FExp _ => col_result cols (map nexp pts)
  | FCos _ => col_result cols (map ncos pts)
  | FSin _ => col_result cols (map nsin pts)
  | FPoly _ c => eval_poly c pts cols
  | FDot _ f1 f2 =>
      r1 <- eval f1 pts (fcod f1) ;;
      r2 <- eval f2 pts (fcod f2) ;;
      if Nat.eqb (fcod f1) (fcod f2)
      then col_result cols (map2 row_dot r1 r2) else UB
  | FExt _ c s k | FPy _ c s k => if Nat.eqb cols c then Ok (map (s k) pts) else UB
  | FExpr SUM _ _ args =>
      match args with
      | [] => UB                                  (* front() of an empty list *)
      | g0 :: _ =>
        (fix go (l : list fn) (acc : rows) : outcome rows :=
           match l with
           | [] => Ok acc
           | g :: l' =>
               temp <- eval g pts (fcod g0) ;;
               if Nat.eqb cols (fcod g0) then go l' (rows_add acc temp) else UB
           end) args (rows_zero (length pts) cols)
      end
  | FExpr MULTIPLICATION _ _ args =>
      match args with
      | [] => UB
      | g0 :: rest =>
        r0 <- eval g0 pts cols ;;
        (fix go (l : list fn) (acc : rows) : outcome rows :=
           match l with
           | [] => Ok acc
           | g :: l' => temp <- eval g pts 1 ;; go l' (rows_colwise_mul acc temp)
           end) rest r0
      end
  | FExpr COMPOSITION _ _ args =>
      (fix go (l : list fn) (p : list T) : outcome rows :=
         match l with
         | [] => UB                               (* std::next(end(), -1) *)
         | g :: l' =>
             match l' with
             | [] => eval g p cols
             | _ => temp <- eval g p 1 ;; go l' (concat temp)
             end
         end) args pts
  | FExpr CONCATENATION _ _ args =>
      match args with
      | [] => UB
      | g0 :: _ =>
        let c0 := fcod g0 in
        let gl := last args g0 in
        mapM (fun t =>
          r <- (fix find (l : list fn) : outcome rows :=
                  match l with
                  | [] =>
                      if t <=? fst (fdom g0) then eval g0 [fst (fdom g0)] c0
                      else if snd (fdom gl) <=? t
                      then (fix evlast (l : list fn) : outcome rows :=
                              match l with
                              | [] => UB
                              | g :: l' => match l' with
                                           | [] => eval g [snd (fdom gl)] c0
                                           | _ => evlast l'
                                           end
                              end) args
                      else Throw InvalidArgument
                  | g :: l' =>
                      if is_point_in_domain g t then eval g [t] c0 else find l'
                  end) args ;;
          if Nat.eqb cols c0 then Ok (hd [] r) else UB) pts
      end
  | FExpr UNIQUE _ _ args =>
      match args with
      | [] => if dbg then Throw AssertFail else UB
      | g :: l => if dbg && negb (Nat.eqb (length l) 0) then Throw AssertFail
                  else eval g pts cols
      end
  | FExpr NEGATIVE _ _ args =>
      match args with
      | [] => if dbg then Throw AssertFail else UB
      | g :: l => if dbg && negb (Nat.eqb (length l) 0) then Throw AssertFail
                  else r <- eval g pts cols ;; Ok (rows_neg r)
      end
  end.

(** FunctionBase::operator(), FunctionBase.hpp:79-84 *)
Definition call (f : fn) (pts : list T) : outcome rows := eval f pts (fcod f).

(** ** FunctionExpression objects, as operands of the operators *)
(* source: include/gsplines/Functions/FunctionExpression.hpp 20-50 *)
Record expr := mkexpr { ety : ftype; edom : dom; ecod : nat; eargs : list fn }.
(* source: the object as a FunctionBase, include/gsplines/Functions/FunctionExpression.hpp 20-22 *)
Definition fe (e : expr) : fn := FExpr (ety e) (edom e) (ecod e) (eargs e).

(** FunctionBase::to_expression and the converting constructors,
    FunctionBase.cpp:66-81, FunctionExpression.cpp:81-93 *)
Definition to_expression (f : fn) : expr := mkexpr UNIQUE (fdom f) (fcod f) [f].

(** static FunctionBase::same_domain, FunctionBase.cpp:27-35 *)
Definition same_domain (d1 d2 : dom) : bool :=
  (nabs (fst d1 - fst d2) <? dom_tol) && (nabs (snd d1 - snd d2) <? dom_tol).

(** Value categories of the two operands: l = const lvalue reference,
    r = rvalue reference. *)
(* source: overload sets, include/gsplines/Functions/FunctionExpression.hpp 91-136 *)
Inductive vcat := LL | LR | RL | RR.

(** *** operation handlers, FunctionGenericOperations.cpp *)
(* source: src/Functions/FunctionGenericOperations.cpp 12-24 *)
Definition flat_or_clone (op : ftype) (e : expr) : list fn :=
  if ftype_eqb (ety e) op || ftype_eqb (ety e) UNIQUE then eargs e else [fe e].
(** lines 7-40 *)
(* source: src/Functions/FunctionGenericOperations.cpp 7-40 *)
Definition const_const_handler (e1 e2 : expr) (op : ftype) : list fn :=
  flat_or_clone op e1 ++ flat_or_clone op e2.
(** lines 42-72 *)
(* source: src/Functions/FunctionGenericOperations.cpp 42-72 *)
Definition const_nonconst_handler (e1 e2 : expr) (op : ftype) : list fn :=
  flat_or_clone op e1 ++ flat_or_clone op e2.
(** lines 74-104 *)
(* source: src/Functions/FunctionGenericOperations.cpp 74-104 *)
Definition nonconst_const_handler (e1 e2 : expr) (op : ftype) : list fn :=
  flat_or_clone op e1 ++ flat_or_clone op e2.
(** lines 106-132 *)
(* source: src/Functions/FunctionGenericOperations.cpp 106-132 *)
Definition nonconst_nonconst_handler (e1 e2 : expr) (op : ftype) : list fn :=
  flat_or_clone op e1 ++ flat_or_clone op e2.

(** *** Sum, FunctionSum.cpp *)
(** sum_throw, 8-16 *)
Definition sum_throw (e1 e2 : expr) : outcome unit :=
  if negb (same_domain (edom e1) (edom e2)) then Throw InvalidArgument
  else if negb (Nat.eqb (ecod e1) (ecod e2)) then Throw InvalidArgument
  else Ok tt.

(** operator+ : 18-29, 31-43, 45-57, 59-71 *)
(* source: src/Functions/FunctionSum.cpp 18-71 *)
Definition add (o : vcat) (e1 e2 : expr) : outcome expr :=
  _ <- sum_throw e1 e2 ;;
  Ok (mkexpr SUM (edom e1) (ecod e1)
        (match o with
         | LL => const_const_handler e1 e2 SUM
         | LR => const_nonconst_handler e1 e2 SUM
         | RL => nonconst_const_handler e1 e2 SUM
         | RR => nonconst_nonconst_handler e1 e2 SUM
         end)).

(** operator-() const & and &&, FunctionMul.cpp:142-154 *)
Definition neg (e : expr) : expr := mkexpr NEGATIVE (edom e) (ecod e) (eargs e).

(** binary operator-, 76-81, 83-88, 90-95, 96-101: sum with a prvalue *)
(* source: src/Functions/FunctionSum.cpp 76-101 *)
Definition sub (o : vcat) (e1 e2 : expr) : outcome expr :=
  _ <- sum_throw e1 e2 ;;
  match o with
  | LL | LR => add LR e1 (neg e2)
  | RL | RR => add RR e1 (neg e2)
  end.

(** operator+=, 139-152 and 154-168: no compatibility check *)
(* source: src/Functions/FunctionSum.cpp 139-168 *)
Definition iadd (e1 e2 : expr) : expr :=
  match ety e1 with
  | UNIQUE | SUM => mkexpr SUM (edom e1) (ecod e1) (eargs e1 ++ [fe e2])
  | _ => mkexpr SUM (edom e1) (ecod e1) [fe e1; fe e2]
  end.
(** e += e, 154-168: the argument is cloned after *this has become a sum *)
(* source: src/Functions/FunctionSum.cpp 154-168 *)
Definition iadd_self (e : expr) : expr :=
  let e1 := match ety e with
            | UNIQUE | SUM => mkexpr SUM (edom e) (ecod e) (eargs e)
            | _ => mkexpr SUM (edom e) (ecod e) [fe e]
            end in
  mkexpr SUM (edom e) (ecod e) (eargs e1 ++ [fe e1]).

(** *** Product, FunctionMul.cpp *)
(** compatibility_mul, 7-18 *)
Definition compatibility_mul (e1 e2 : expr) : outcome unit :=
  if negb (same_domain (edom e1) (edom e2)) then Throw InvalidArgument
  else if Nat.ltb 1 (ecod e1) && Nat.ltb 1 (ecod e2) then Throw InvalidArgument
  else Ok tt.

(** return_first_or_max_codom_dim 20-28, return_second_or_mim_codom_dim 39-47 *)
(* source: src/Functions/FunctionMul.cpp 20-28 *)
Definition first_or_max (e1 e2 : expr) : expr :=
  if Nat.leb (ecod e2) (ecod e1) then e1 else e2.
(* source: src/Functions/FunctionMul.cpp 39-47 *)
Definition second_or_min (e1 e2 : expr) : expr :=
  if Nat.leb (ecod e2) (ecod e1) then e2 else e1.

(** operator* : 49-68, 70-93, 95-117, 119-141 *)
(* source: src/Functions/FunctionMul.cpp 49-141 *)
Definition mul (o : vcat) (e1 e2 : expr) : outcome expr :=
  _ <- compatibility_mul e1 e2 ;;
  let v := first_or_max e1 e2 in
  let s := second_or_min e1 e2 in
  match o with
  | LL => Ok (mkexpr MULTIPLICATION (edom v) (ecod v) (const_const_handler v s MULTIPLICATION))
  | LR => Ok (mkexpr MULTIPLICATION (edom e1) (ecod v)
                (if Nat.leb (ecod e2) (ecod e1)
                 then const_nonconst_handler e1 e2 MULTIPLICATION
                 else nonconst_const_handler e2 e1 MULTIPLICATION))
  | RL => Ok (mkexpr MULTIPLICATION (edom e1) (ecod v)
                (if Nat.leb (ecod e2) (ecod e1)
                 then nonconst_const_handler e1 e2 MULTIPLICATION
                 else const_nonconst_handler e2 e1 MULTIPLICATION))
  | RR => Ok (mkexpr MULTIPLICATION (edom e1) (ecod v)
                (if Nat.leb (ecod e2) (ecod e1)
                 then nonconst_nonconst_handler e1 e2 MULTIPLICATION
                 else nonconst_nonconst_handler e2 e1 MULTIPLICATION))
  end.

(** double * expression, 156-163: a prvalue ConstFunction is converted to an
    expression (FunctionBase.cpp:165-171) and multiplied. *)
Definition scal (rv : bool) (a : T) (e : expr) : outcome expr :=
  mul (if rv then RR else RL) (to_expression (const_function (edom e) 1 a)) e.

(** operator*=, 165-194: no compatibility check, no reordering *)
(* source: src/Functions/FunctionMul.cpp 165-194 *)
Definition imul (e1 e2 : expr) : expr :=
  match ety e1 with
  | UNIQUE | MULTIPLICATION => mkexpr MULTIPLICATION (edom e1) (ecod e1) (eargs e1 ++ [fe e2])
  | _ => mkexpr MULTIPLICATION (edom e1) (ecod e1) [fe e1; fe e2]
  end.
(** e *= e, 180-194 *)
(* source: src/Functions/FunctionMul.cpp 180-194 *)
Definition imul_self (e : expr) : expr :=
  let e1 := match ety e with
            | UNIQUE | MULTIPLICATION => mkexpr MULTIPLICATION (edom e) (ecod e) (eargs e)
            | _ => mkexpr MULTIPLICATION (edom e) (ecod e) [fe e]
            end in
  mkexpr MULTIPLICATION (edom e) (ecod e) (eargs e1 ++ [fe e1]).

(** *** Composition, FunctionsComp.cpp.  function_array_ is innermost first. *)
(** comp_throw, 8-19 *)
Definition comp_throw (e1 e2 : expr) : outcome unit :=
  if Nat.ltb 1 (ecod e2) then Throw InvalidArgument else Ok tt.

(* source: src/Functions/FunctionsComp.cpp 28-46 *)
Definition comp_args (e : expr) : list fn :=
  if ftype_eqb (ety e) COMPOSITION then eargs e else [fe e].

(** this.compose(that) : 21-51, 53-80, 82-120, 122-157.  The rvalue.compose(const&)
    overload extends a composition in place and returns it with the domain it
    had before (87-100). *)
(* source: src/Functions/FunctionsComp.cpp 21-157 *)
Definition compose (o : vcat) (this that : expr) : outcome expr :=
  _ <- comp_throw this that ;;
  let fresh := Ok (mkexpr COMPOSITION (edom that) (ecod this) (comp_args that ++ comp_args this)) in
  match o with
  | LL | LR => fresh
  | RL => if ftype_eqb (ety this) COMPOSITION
          then Ok (mkexpr COMPOSITION (edom this) (ecod this) (comp_args that ++ eargs this))
          else fresh
  | RR => if ftype_eqb (ety this) COMPOSITION
          then Ok (mkexpr COMPOSITION (edom that) (ecod this) (comp_args that ++ eargs this))
          else fresh
  end.

(** *** Concatenation, FunctionsConcat.cpp *)
(** concat_throw, 7-17 *)
Definition concat_throw (e1 e2 : expr) : outcome unit :=
  if negb (Nat.eqb (ecod e1) (ecod e2)) then Throw InvalidArgument
  else if nabs (snd (edom e1) - fst (edom e2)) >? dom_tol then Throw InvalidArgument
  else Ok tt.

(* source: src/Functions/FunctionsConcat.cpp 26-44 *)
Definition concat_args (e : expr) : list fn :=
  if ftype_eqb (ety e) CONCATENATION then eargs e else [fe e].

(** this.concat(that) : 19-48, 50-77, 79-108, 110-134.  The rvalue overloads
    return a concatenation extended in place with its old domain (100-101,
    127-128). *)
(* source: src/Functions/FunctionsConcat.cpp 19-134 *)
Definition concat_ (o : vcat) (this that : expr) : outcome expr :=
  _ <- concat_throw this that ;;
  let fresh := Ok (mkexpr CONCATENATION (fst (edom this), snd (edom that)) (ecod this)
                     (concat_args this ++ concat_args that)) in
  match o with
  | LL | LR => fresh
  | RL | RR =>
      if ftype_eqb (ety this) CONCATENATION
      then Ok (mkexpr CONCATENATION (edom this) (ecod this) (eargs this ++ concat_args that))
      else fresh
  end.

(** ** Derivatives *)

(** DomainLinearDilation::deriv_impl, ElementalFunctions.cpp:51-59 *)
Definition deriv_dil (d : dom) (a : T) (deg : nat) : fn :=
  match deg with
  | 0 => fe (to_expression (FDil d a))
  | 1 => fe (to_expression (const_function d 1 a))
  | _ => fe (to_expression (const_function d 1 n0))
  end.
(** ConstFunction::deriv_impl, 30-35 *)
(* source: src/Functions/ElementalFunctions.cpp 30-35 *)
Definition deriv_const (d : dom) (v : list T) (deg : nat) : fn :=
  match deg with
  | 0 => FConst d v
  | _ => const_function d (length v) n0
  end.
(** Cos::deriv_impl, 99-111.  [-Sin(d)] is FunctionBase::operator-
    (FunctionBase.cpp:145-151): the negation of an expression holding one function. *)
Definition deriv_cos (d : dom) (deg : nat) : fn :=
  match Nat.modulo deg 4 with
  | 0 => fe (to_expression (FCos d))
  | 1 => fe (neg (to_expression (FSin d)))
  | 2 => fe (neg (to_expression (FCos d)))
  | _ => fe (to_expression (FSin d))
  end.
(** Sin::deriv_impl, 124-136 *)
(* source: src/Functions/ElementalFunctions.cpp 124-136 *)
Definition deriv_sin (d : dom) (deg : nat) : fn :=
  match Nat.modulo deg 4 with
  | 0 => fe (to_expression (FSin d))
  | 1 => fe (to_expression (FCos d))
  | 2 => fe (neg (to_expression (FSin d)))
  | _ => fe (neg (to_expression (FCos d)))
  end.

(** One pass of the loop of CanonicPolynomial::deriv_impl (184-186):
    result(u) = (u+1) * result(u+1) for u < vsize-1, then the vector is cut. *)
(* source: src/Functions/ElementalFunctions.cpp 184-186 *)
Definition poly_shift (c : list T) : list T :=
  map2 (fun u x => (nofnat u + n1) * x) (seq 0 (length (tl c))) (tl c).
(** the loop 183-193: stops with the zero polynomial when vsize reaches 0 *)
(* source: src/Functions/ElementalFunctions.cpp 183-193 *)
Fixpoint poly_deriv_loop (deg : nat) (c : list T) : list T :=
  match deg with
  | O => c
  | S k => match poly_shift c with
           | [] => [n0]
           | c' => poly_deriv_loop k c'
           end
  end.
(** CanonicPolynomial::deriv_impl, 167-195.  [(int)vsize - _deg <= 0] is an
    unsigned comparison: true only when vsize = _deg.  With an empty vector
    [vsize - 1] wraps and the loop writes out of bounds. *)
(* source: src/Functions/ElementalFunctions.cpp 167-195 *)
Definition deriv_poly (d : dom) (c : list T) (deg : nat) : outcome fn :=
  match deg with
  | O => Ok (FPoly d c)
  | _ =>
    if Nat.eqb (length c) deg then Ok (FPoly d [n0])
    else match c with
         | [] => UB
         | _ => Ok (FPoly d (poly_deriv_loop deg c))
         end
  end.

(** remove the i-th element: the inner loop FunctionMul.cpp:247-251 *)
Fixpoint remove_nth {A} (i : nat) (l : list A) : list A :=
  match l, i with
  | [], _ => []
  | _ :: l', O => l'
  | x :: l', S i' => x :: remove_nth i' l'
  end.

(** first_deriv_mul_functions, FunctionMul.cpp:220-266; [ds] are the first
    derivatives of [args]. *)
Definition mul_terms (d : dom) (c : nat) (args ds : list fn) : list fn :=
  match args, ds with
  | g0 :: rest, d0 :: drest =>
      FExpr MULTIPLICATION d c (d0 :: rest)
      :: map2 (fun i di => FExpr MULTIPLICATION d c (remove_nth i args ++ [di]))
              (seq 1 (length rest)) drest
  | _, _ => []
  end.

(** first_deriv_compose_functions, FunctionsComp.cpp:191-258: factors are
    pushed to the front, so the outermost derivative comes first. *)
Definition comp_factors (d : dom) (args ds : list fn) : list fn :=
  match args, ds with
  | g0 :: rest, d0 :: drest =>
      rev (map2 (fun i gd => FExpr COMPOSITION d (fcod (fst gd)) (firstn i args ++ [snd gd]))
                (seq 1 (length rest)) (combine rest drest)) ++ [d0]
  | _, _ => []
  end.

(** DotProduct::first_deriv_impl, ElementalFunctions.cpp:234-237:
    f1_.derivate().dot(f2_) + f1_.dot(f2_.derivate()), where the first dot is
    called on an rvalue and therefore swaps its operands (FunctionBase.cpp:57-60). *)
Definition dot (o : vcat) (f g : fn) : fn :=
  match o with
  | LL | LR => FDot (fdom f) (fe (to_expression f)) (fe (to_expression g))
  | RL | RR => FDot (fdom g) (fe (to_expression g)) (fe (to_expression f))
  end.
(* source: src/Functions/ElementalFunctions.cpp 234-237 *)
Definition dot_first_deriv (f1 f2 d1 d2 : fn) : outcome fn :=
  e <- add RR (to_expression (dot RL d1 f2)) (to_expression (dot LR f1 d2)) ;;
  Ok (fe e).

(** deriv_impl(1) of every class. *)
(* source: virtual call of deriv_impl, include/gsplines/Functions/FunctionBase.hpp 66-69; the bodies are cited at the branches *)
Fixpoint deriv1 (f : fn) : outcome fn :=
  match f with
  | FConst d v => Ok (deriv_const d v 1)
  | FDil d a => Ok (deriv_dil d a 1)
  | FExp d => Ok (FExp d)
  | FCos d => Ok (deriv_cos d 1)
  | FSin d => Ok (deriv_sin d 1)
  | FPoly d c => deriv_poly d c 1
  | FDot d f1 f2 =>
      d1 <- deriv1 f1 ;; d2 <- deriv1 f2 ;; dot_first_deriv f1 f2 d1 d2
  | FExt d c s k => Ok (FExt d c s (k + 1))
  | FPy d c s k => Ok (FPy d c s (k + 1))
  | FExpr ty _ _ args =>
      match args with
      | [] => UB
      | g0 :: rest =>
        let d := fdom g0 in
        let gl := last args g0 in
        match ty with
        | SUM => ds <- mapM deriv1 args ;; Ok (FExpr SUM d (fcod g0) ds)
        | MULTIPLICATION =>
            ds <- mapM deriv1 args ;; Ok (FExpr SUM d (fcod g0) (mul_terms d (fcod g0) args ds))
        | COMPOSITION =>
            ds <- mapM deriv1 args ;; Ok (FExpr MULTIPLICATION d (fcod gl) (comp_factors d args ds))
        | CONCATENATION =>
            ds <- mapM deriv1 args ;; Ok (FExpr CONCATENATION (fst d, snd (fdom gl)) (fcod g0) ds)
        | UNIQUE => if dbg && negb (Nat.eqb (length rest) 0) then Throw AssertFail
                    else d0 <- deriv1 g0 ;; Ok (FExpr UNIQUE d (fcod g0) [d0])
        | NEGATIVE => if dbg && negb (Nat.eqb (length rest) 0) then Throw AssertFail
                      else d0 <- deriv1 g0 ;; Ok (FExpr NEGATIVE d (fcod g0) [d0])
        end
      end
  end.

(** the loops [for (k = 1; k < _deg; k++) result = result->deriv()],
    FunctionMul.cpp:282-286, FunctionsComp.cpp:275-279, ElementalFunctions.cpp:248-252 *)
Fixpoint iter_deriv1 (k : nat) (f : fn) : outcome fn :=
  match k with
  | O => Ok f
  | S k' => g <- iter_deriv1 k' f ;; deriv1 g
  end.

(** deriv_impl(deg) of every class:
    - deriv_sum_functions, FunctionSum.cpp:123-137
    - deriv_mul_functions, FunctionMul.cpp:268-291
    - deriv_compose_functions, FunctionsComp.cpp:260-283
    - deriv_concat_functions, FunctionsConcat.cpp:157-181
    - deriv_unique_functions, deriv_negative_functions, FunctionExpression.cpp:189-228
    - DotProduct::deriv_impl, ElementalFunctions.cpp:239-256 *)
Fixpoint deriv (f : fn) (deg : nat) {struct f} : outcome fn :=
  match f with
  | FConst d v => Ok (deriv_const d v deg)
  | FDil d a => Ok (deriv_dil d a deg)
  | FExp d => Ok (FExp d)
  | FCos d => Ok (deriv_cos d deg)
  | FSin d => Ok (deriv_sin d deg)
  | FPoly d c => deriv_poly d c deg
  | FDot d f1 f2 =>
      match deg with
      | O => Ok (fe (to_expression f))
      | S k => g <- deriv1 f ;; iter_deriv1 k g
      end
  | FExt d c s k => Ok (FExt d c s (k + deg))
  | FPy d c s k => Ok (FPy d c s (k + 1))
  | FExpr ty _ _ args =>
      match args with
      | [] => UB
      | g0 :: rest =>
        let d := fdom g0 in
        let gl := last args g0 in
        match ty with
        | SUM => ds <- mapM (fun g => deriv g deg) args ;; Ok (FExpr SUM d (fcod g0) ds)
        | MULTIPLICATION =>
            match deg with
            | O => Ok (FExpr MULTIPLICATION d (fcod g0) args)
            | S k => g <- deriv1 f ;; iter_deriv1 k g
            end
        | COMPOSITION =>
            match deg with
            | O => Ok (FExpr COMPOSITION d (fcod gl) args)
            | S k => g <- deriv1 f ;; iter_deriv1 k g
            end
        | CONCATENATION =>
            ds <- mapM (fun g => deriv g deg) args ;;
            Ok (FExpr CONCATENATION (fst d, snd (fdom gl)) (fcod g0) ds)
        | UNIQUE => if dbg && negb (Nat.eqb (length rest) 0) then Throw AssertFail
                    else d0 <- deriv g0 deg ;; Ok (FExpr UNIQUE d (fcod g0) [d0])
        | NEGATIVE => if dbg && negb (Nat.eqb (length rest) 0) then Throw AssertFail
                      else d0 <- deriv g0 deg ;; Ok (FExpr NEGATIVE d (fcod g0) [d0])
        end
      end
  end.

End Fun.

Arguments fn T : clear implicits.
Arguments expr T : clear implicits.
Arguments dom T : clear implicits.
