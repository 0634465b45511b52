(** Model of the dictionary conversions (python/gsplines/serialization.py), of get_basis (src/Basis/Basis.cpp 15-43) and of the
    argument conversions of the bindings they go through (bindings/bindings.cpp 28-66, 100-117).

    Python values: only those that can occur in such a dictionary.  bool is a subclass of int; numpy's float64, which
    [list(array)] contains, is a subclass of float.

    Simplifications.  Integers beyond size_t are not refused.  A list for an Eigen vector is accepted when its elements are numbers;
    numpy would also accept strings of digits and rows of one element.  The texts of the error messages are left out (before Python 3.10
    List.__name__ in lines 20 and 53 does not exist: the exception then is AttributeError).  A dictionary keeps its insertion
    order; [dget] finds the first entry, keys are unique. *)
From Coq Require Import List Arith Bool ZArith String.
From Verif Require Import Num Outcome LinAlg LegendreModel LagrangeModel BasisModel GLModel GSplineModel.
Import ListNotations.
Local Open Scope string_scope.
Local Open Scope list_scope.
Local Open Scope num_scope.

Section Serial.
Context {T : Type} `{Num T}.

(* source: no code of its own: the Python values of python/gsplines/serialization.py 7-63 *)
Inductive pyval :=
| PyNone | PyBool (b : bool) | PyInt (z : Z) | PyFloat (x : T) | PyStr (s : string) | PyList (l : list pyval) | PyDict (l : list (string * pyval)).
(* source: python/gsplines/serialization.py 8, 26 *)
Definition pydict := list (string * pyval).
(** [_dict.get(key)] *)
(* source: python/gsplines/serialization.py 18, 51 *)
Definition dget (d : pydict) (key : string) : pyval :=
  match find (fun p => String.eqb (fst p) key) d with Some p => snd p | None => PyNone end.

(** ** bindings: vectors to lists and back *)
(** [list(vector)]: every coefficient is read *)
(* source: list(...), python/gsplines/serialization.py 11, 37-38 *)
Fixpoint read_all (v : vec T) (l : list nat) : outcome (list T) :=
  match l with [] => Ok [] | i :: r => x <- vread v i ;; xs <- read_all v r ;; Ok (x :: xs) end.
(* source: python/gsplines/serialization.py 11, 37-38 *)
Definition py_list (v : vec T) : outcome pyval := l <- read_all v (seq 0 (vlen v)) ;; Ok (PyList (map PyFloat l)).
(** a number as a double *)
(* source: pybind11 conversion, bindings/bindings.cpp 28-66, 100-117 *)
Definition to_double (v : pyval) : outcome T :=
  match v with PyFloat x => Ok x | PyInt z => Ok (nofZ z) | PyBool b => Ok (if b then n1 else n0) | _ => Throw TypeError end.
(* source: pybind11 conversion, bindings/bindings.cpp 28-66, 100-117 *)
Fixpoint to_doubles (l : list pyval) : outcome (list T) :=
  match l with [] => Ok [] | v :: r => x <- to_double v ;; xs <- to_doubles r ;; Ok (x :: xs) end.
(** an int as a std::size_t *)
(* source: pybind11 conversion, bindings/bindings.cpp 28-66, 100-117 *)
Definition to_size (v : pyval) : outcome nat :=
  match v with
  | PyInt z => if Z.ltb z 0 then Throw TypeError else Ok (Z.to_nat z)
  | PyBool b => Ok (if b then 1 else 0)%nat
  | _ => Throw TypeError
  end.

(** ** get_basis *)
(* source: src/Basis/Basis.cpp 24-38 *)
Definition name_str (n : bname) : string := match n with NLegendre => "legendre" | NLagrange => "lagrange" | N0101 => "basis0101" end.
Variable fresh : nat -> nat -> option T.
(** Basis.cpp 23-43; BasisLagrange.cpp 33-59; the move_clone of bindings.cpp 65 hands the same data over *)
Definition get_basis (name : string) (dim : nat) (params : vec T) : outcome (basis T) :=
  if String.eqb name "lagrange" then
    bw <- bary_weights params ;;
    glp <- gl_points (vlen params) ;;
    glw <- gl_weights (vlen params) ;;
    gram <- lag_ctor_buffer params glp glw fresh ;;
    Ok (BLagrange params bw gram)
  else if String.eqb name "legendre" then
    gram <- leg_ctor_buffer dim ;; Ok (BLegendre dim gram)
  else if String.eqb name "basis0101" then
    if negb (Nat.eqb (vlen params) 1) then Throw InvalidArgument
    else a <- vread params 0 ;; Ok (B0101 a)
  else Throw InvalidArgument.

(** ** serialization.py *)
(** 7-12 *)
Definition basis_to_dict (b : basis T) : outcome pydict :=
  p <- py_list (b_params b) ;;
  Ok [("name", PyStr (name_str (b_name b))); ("dim", PyInt (Z.of_nat (b_dim b))); ("parameters", p)].
(** 15-22: the types are checked key by key, then the C++ function converts its arguments *)
(* source: python/gsplines/serialization.py 15-22 *)
Definition dict_to_basis (d : pydict) : outcome (basis T) :=
  match dget d "name", dget d "dim", dget d "parameters" with
  | PyStr name, (PyInt _ | PyBool _) as dim, PyList l =>
    dim <- to_size dim ;;
    l <- to_doubles l ;;
    get_basis name dim (vec_of_list l)
  | _, _, _ => Throw TypeError
  end.
(** 25-39 *)
(* source: python/gsplines/serialization.py 25-39 *)
Definition gspline_to_dict (g : gspline T) : outcome pydict :=
  b <- basis_to_dict (gs_basis g) ;;
  c <- py_list (gs_coef g) ;;
  tau <- py_list (gs_tau g) ;;
  Ok [("domain_left_boundary", PyFloat (fst (gs_dom g))); ("domain_right_boundary", PyFloat (snd (gs_dom g)));
      ("codom_dim", PyInt (Z.of_nat (gs_codom g))); ("number_of_intervals", PyInt (Z.of_nat (gs_n g)));
      ("basis", PyDict b); ("coefficients", c); ("interval_lengths", tau)].
(** 42-63 *)
(* source: python/gsplines/serialization.py 42-63 *)
Definition dict_to_gspline (d : pydict) : outcome (gspline T) :=
  match dget d "domain_left_boundary", dget d "domain_right_boundary", dget d "codom_dim", dget d "number_of_intervals",
        dget d "basis", dget d "coefficients", dget d "interval_lengths" with
  | PyFloat a, PyFloat z, (PyInt _ | PyBool _) as codom, (PyInt _ | PyBool _) as n, PyDict b, PyList c, PyList tau =>
    b <- dict_to_basis b ;;
    codom <- to_size codom ;;
    n <- to_size n ;;
    c <- to_doubles c ;;
    tau <- to_doubles tau ;;
    gs_ctor (a, z) codom n b (bs_init b) (vec_of_list c) (vec_of_list tau)
  | _, _, _, _, _, _, _ => Throw TypeError
  end.
End Serial.
Arguments pyval : clear implicits.
Arguments pydict : clear implicits.
