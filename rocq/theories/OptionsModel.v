(** Model of IpoptSolverOptions, src/Optimization/ipopt_solver.cpp 41-102 and
    include/gsplines/Optimization/ipopt_solver.hpp 21-56. *)
From Coq Require Import List String ZArith.
From Verif Require Import Num ToolsModel.
Import ListNotations.
Local Open Scope string_scope.
Local Open Scope list_scope.

(** the three vectors of pairs, ipopt_solver.hpp 26-41 *)
Record options (T : Type) := mkopts { string_options : list (string * string); int_options : list (string * Z); double_options : list (string * T) }.
Arguments mkopts {T}. Arguments string_options {T}. Arguments int_options {T}. Arguments double_options {T}.

Section Options.
Context {T : Type} `{Num T}.

(** in-class initialisers, ipopt_solver.hpp 26-41 *)
Definition default_options : options T := mkopts
  [("linear_solver", "mumps"); ("jacobian_approximation", "exact"); ("fast_step_computation", "yes");
   ("derivative_test", "none"); ("hessian_approximation", "limited-memory"); ("jac_c_constant", "yes");
   ("print_timing_statistics", "no"); ("dependency_detector", "none"); ("dependency_detection_with_rhs", "no")]
  [("print_level", 0%Z)]
  [("tol", ten_m 3)].

(** instance_ and instance(), ipopt_solver.cpp 41, 45-50: created on first use *)
Definition instance (i : option (options T)) : options T := match i with Some o => o | None => default_options end.

(** [std::find_if] for the name, then assignment through the iterator or [emplace_back]:
    54-62, 67-75, 80-88 *)
(* source: src/Optimization/ipopt_solver.cpp 54-62, 67-75, 80-88 *)
Fixpoint find_assign {V} (name : string) (value : V) (l : list (string * V)) : option (list (string * V)) :=
  match l with
  | [] => None
  | (n, v) :: r => if String.eqb n name then Some ((n, value) :: r)
                   else match find_assign name value r with Some r' => Some ((n, v) :: r') | None => None end
  end.
(* source: src/Optimization/ipopt_solver.cpp 54-62, 67-75, 80-88 *)
Definition set_in {V} (name : string) (value : V) (l : list (string * V)) : list (string * V) :=
  match find_assign name value l with Some l' => l' | None => l ++ [(name, value)] end.

(** the three overloads of set_option, 52-63, 65-76, 78-89 *)
(* source: src/Optimization/ipopt_solver.cpp 52-63, 65-76, 78-89 *)
Inductive setting := SetStr (name value : string) | SetInt (name : string) (value : Z) | SetDbl (name : string) (value : T).
(* source: src/Optimization/ipopt_solver.cpp 52-89 *)
Definition set_option (s : setting) (i : option (options T)) : option (options T) :=
  let o := instance i in
  Some match s with
  | SetStr n v => mkopts (set_in n v (string_options o)) (int_options o) (double_options o)
  | SetInt n v => mkopts (string_options o) (set_in n v (int_options o)) (double_options o)
  | SetDbl n v => mkopts (string_options o) (int_options o) (set_in n v (double_options o))
  end.
(** a history of calls, the earliest first *)
(* source: no code of its own: a sequence of calls of set_option *)
Fixpoint run (h : list setting) (i : option (options T)) : option (options T) :=
  match h with [] => i | s :: r => run r (set_option s i) end.

(** set_options_on_interface, 90-102: the calls of ifopt's SetOption, in order; the state afterwards *)
(* source: src/Optimization/ipopt_solver.cpp 90-102 *)
Definition set_options_on_interface (i : option (options T)) : list setting * option (options T) :=
  let o := instance i in
  (map (fun p => SetStr (fst p) (snd p)) (string_options o) ++ map (fun p => SetInt (fst p) (snd p)) (int_options o) ++
   map (fun p => SetDbl (fst p) (snd p)) (double_options o), Some o).
End Options.
Arguments setting T : clear implicits.
