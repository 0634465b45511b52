(** Model of the objects that put the collocation functionals into an ifopt problem
    (include/gsplines/Collocation/GaussLobattoLagrangeFunctionals.hpp 14-30, 138-186, 418-445, 480-586,
    src/Collocation/GaussLobattoLagrangeFunctionals.cpp 115-127).

    ifopt is not part of the repository.  What [GetVariables()->GetComponent(name)] returns is an argument:
    the variable sets in scope, by name.  The static counters are naturals (they are ints in the code). *)
From Coq Require Import List Arith Bool ZArith String Decimal DecimalString.
From Verif Require Import Num Outcome LinAlg LegendreModel LagrangeModel Basis0101Model BasisModel ToolsModel FunModel GSplineModel GLModel GLLModel GLFModel OptModel.
Import ListNotations.
Local Open Scope string_scope.
Local Open Scope list_scope.
Local Open Scope nat_scope.
Local Open Scope num_scope.

Section GLO.
Context {T : Type} `{Num T}.
Variable fresh : nat -> nat -> option T.

(** ** ContinuityError, .hpp 418-445: the owned basis with its caches, codom_dim_ (its own), deg_,
    the codomain dimension of the base class Functional (17), mat_ *)
Record cont_err := mkce { ce_basis : basis T; ce_bst : bstate T; ce_codom : nat; ce_deg : nat; ce_rows : nat; ce_mat : mat T }.
(** constructor from a spline, 427-432; the caches of the spline's own basis are used (and filled, which nothing else can see: C23) *)
(* source: include/gsplines/Collocation/GaussLobattoLagrangeFunctionals.hpp 427-432 *)
Definition ce_of (g : gspline T) (deg : nat) : outcome cont_err :=
  '(m, _) <- continuity_matrix (gs_basis g) (gs_n g) (gs_codom g) deg (gs_tau g) (gs_bst g) ;;
  b <- gll_basis fresh (gs_dim g) ;;
  Ok (mkce b (bs_init b) (gs_codom g) deg (srows m) (sdense m)).
(** constructor from lengths, 434-439 *)
(* source: include/gsplines/Collocation/GaussLobattoLagrangeFunctionals.hpp 434-439 *)
Definition ce_ctor (nglp : nat) (taus : vec T) (codom deg : nat) : outcome cont_err :=
  m <- cont_error fresh nglp taus codom deg ;;
  b <- gll_basis fresh nglp ;;
  Ok (mkce b (bs_init b) codom deg (mrows m) m).
(** update, 441-444: mat_ only *)
(* source: include/gsplines/Collocation/GaussLobattoLagrangeFunctionals.hpp 441-444 *)
Definition ce_update (c : cont_err) (taus : vec T) : outcome cont_err :=
  '(m, s) <- continuity_matrix (ce_basis c) (vlen taus) (ce_codom c) (ce_deg c) taus (ce_bst c) ;;
  Ok (mkce (ce_basis c) s (ce_codom c) (ce_deg c) (ce_rows c) (sdense m)).

(** ** What the wrappers use of their base class T *)
(* source: the bases of the wrappers, include/gsplines/Collocation/GaussLobattoLagrangeFunctionals.hpp 499, 539 *)
Inductive functional := FDistance (s : sdist T) | FLinear (rows : nat) (m : mat T).
(* source: include/gsplines/Collocation/GaussLobattoLagrangeFunctionals.hpp 418-445 as base class *)
Definition fl_of_ce (c : cont_err) : functional := FLinear (ce_rows c) (ce_mat c).
(* source: include/gsplines/Collocation/GaussLobattoLagrangeFunctionals.hpp 46-73 as base class *)
Definition fl_of_mat (m : mat T) : functional := FLinear (mrows m) m.
(** get_codom_dim, .hpp 28, with 20, 56-73 and .cpp 89 *)
Definition fl_codom (f : functional) : nat := match f with FDistance _ => 1 | FLinear r _ => r end.
(** operator(), 138-141 and .cpp 97-103 *)
Definition fl_call (f : functional) (g : gspline T) : outcome (vec T) :=
  match f with FDistance s => sd_value fresh s g | FLinear _ m => lf_call m g end.
(** differential(spline)->to_sparse_matrix(), 168-184 and .cpp 105-113: a copy of the matrix *)
Definition fl_jac (f : functional) (g : gspline T) : outcome (mat T) :=
  match f with FDistance s => sd_diff_matrix fresh s g | FLinear _ m => Ok m end.

(** ** GLLSplineVariable, .hpp 480-491, .cpp 115-127: the spline, GetRows(), bounds_ *)
Record gvar := mkgvar { gv_spline : gspline T; gv_rows : nat; gv_bounds : vec (T * T) }.
(* source: src/Collocation/GaussLobattoLagrangeFunctionals.cpp 115-121 *)
Definition gv_ctor (g : gspline T) : outcome gvar :=
  r <- gs_copy g ;;
  Ok (mkgvar r (vlen (gs_coef g)) (vconst (vlen (gs_coef g)) (- ifopt_inf, ifopt_inf))).
(** SetVariables: the size is not checked *)
(* source: src/Collocation/GaussLobattoLagrangeFunctionals.cpp 122-124 *)
Definition gv_set (v : gvar) (x : vec T) : gvar := mkgvar (with_coef (gv_spline v) x) (gv_rows v) (gv_bounds v).
(* source: src/Collocation/GaussLobattoLagrangeFunctionals.cpp 125-127 *)
Definition gv_values (v : gvar) : vec T := gs_coef (gv_spline v).

(** ** The variable sets in scope.  A set that is not a GaussLobattoLagrangeSpline makes the dynamic cast return a null pointer *)
(* source: what GetComponent returns, include/gsplines/Collocation/GaussLobattoLagrangeFunctionals.hpp 511-516, 560-564 *)
Inductive component := CSpline (v : gvar) | COther.
(* source: GetVariables(), include/gsplines/Collocation/GaussLobattoLagrangeFunctionals.hpp 513 *)
Definition vars := list (string * component).
(* source: GetComponent(name), include/gsplines/Collocation/GaussLobattoLagrangeFunctionals.hpp 513 *)
Definition find_set (vs : vars) (name : string) : option component :=
  option_map snd (find (fun p => String.eqb (fst p) name) vs).
(** the lookup and cast, .hpp 511-516, 525-529, 560-564, 573-577 *)
Definition the_spline (vs : vars) : outcome (gspline T) :=
  match find_set vs "GLL" with Some (CSpline v) => Ok (gv_spline v) | _ => Throw LogicError end.

(** ** Static counters, one pair for each class T (here: a number) *)
(* source: include/gsplines/Collocation/GaussLobattoLagrangeFunctionals.hpp 501, 543, 585-586 *)
Record counters := mkcnt { n_cost : nat -> nat; n_con : nat -> nat }.
(** 585-586 *)
(* source: include/gsplines/Collocation/GaussLobattoLagrangeFunctionals.hpp 585-586 *)
Definition cnt_init : counters := mkcnt (fun _ => 0%nat) (fun _ => 0%nat).
(** std::to_string *)
(* source: include/gsplines/Collocation/GaussLobattoLagrangeFunctionals.hpp 507, 551 *)
Definition to_string (n : nat) : string := NilEmpty.string_of_uint (Nat.to_uint n).

(** ** CostWrapper<T>, 499-537: name and base class *)
(* source: include/gsplines/Collocation/GaussLobattoLagrangeFunctionals.hpp 499-537 *)
Record costw := mkcw { cw_name : string; cw_fun : functional }.
(** constructor, 504-507: the counter is read and never changed *)
(* source: include/gsplines/Collocation/GaussLobattoLagrangeFunctionals.hpp 504-507 *)
Definition cw_ctor (cls : nat) (f : functional) (k : counters) : costw * counters :=
  (mkcw ("cost_" ++ to_string (n_cost k cls)) f, k).
(** GetCost, 509-521 *)
(* source: include/gsplines/Collocation/GaussLobattoLagrangeFunctionals.hpp 509-521 *)
Definition cw_cost (c : costw) (vs : vars) : outcome T :=
  g <- the_spline vs ;; r <- fl_call (cw_fun c) g ;; vread r 0.
(** FillJacobianBlock, 523-536 *)
(* source: include/gsplines/Collocation/GaussLobattoLagrangeFunctionals.hpp 523-536 *)
Definition cw_jacobian (c : costw) (vs : vars) (name : string) : outcome (mat T) :=
  g <- the_spline vs ;; if String.eqb name "GLL" then fl_jac (cw_fun c) g else Throw LogicError.

(** ** ConstraintWrapper<T>, 539-584: name, GetRows(), bounds_, base class *)
(* source: include/gsplines/Collocation/GaussLobattoLagrangeFunctionals.hpp 539-584 *)
Record conw := mknw { nw_name : string; nw_rows : nat; nw_bounds : vec (T * T); nw_fun : functional }.
(** constructor, 546-556 *)
(* source: include/gsplines/Collocation/GaussLobattoLagrangeFunctionals.hpp 546-556 *)
Definition nw_ctor (cls : nat) (lo hi : T) (f : functional) (k : counters) : conw * counters :=
  (mknw ("Wrapper_" ++ to_string (n_con k cls)) (fl_codom f) (vconst (fl_codom f) (lo, hi)) f,
   mkcnt (n_cost k) (fun c => if Nat.eqb c cls then S (n_con k c) else n_con k c)).
(** GetValues, 558-567 *)
(* source: include/gsplines/Collocation/GaussLobattoLagrangeFunctionals.hpp 558-567 *)
Definition nw_values (c : conw) (vs : vars) : outcome (vec T) :=
  g <- the_spline vs ;; fl_call (nw_fun c) g.
(** FillJacobianBlock, 571-583 *)
(* source: include/gsplines/Collocation/GaussLobattoLagrangeFunctionals.hpp 571-583 *)
Definition nw_jacobian (c : conw) (vs : vars) (name : string) : outcome (mat T) :=
  g <- the_spline vs ;; if String.eqb name "GLL" then fl_jac (nw_fun c) g else Throw LogicError.

(** ** A problem made of these objects, and a run of questions put to it by an optimiser *)
(* source: no code of its own: a cost, constraints and the sets in scope *)
Record gprob := mkgp { gp_var : gvar; gp_others : vars; gp_cost : costw; gp_cons : list conw }.
(* source: no code of its own: the sets in scope *)
Definition gp_scope (p : gprob) : vars := gp_others p ++ [("GLL", CSpline (gp_var p))].
(* source: no code of its own: SetVariables called by ifopt *)
Definition gp_set (p : gprob) (x : vec T) : gprob := mkgp (gv_set (gp_var p) x) (gp_others p) (gp_cost p) (gp_cons p).
(* source: no code of its own: what ifopt can call *)
Inductive gquery := QSet (x : vec T) | QCost | QGradient (name : string) | QValues (i : nat) | QJacobian (i : nat) (name : string).
(* source: no code of its own: the answers *)
Inductive ganswer := GDone | GNumber (v : T) | GVector (v : vec T) | GMatrix (m : mat T).
(* source: no code of its own: one call by ifopt *)
Definition gp_ask (p : gprob) (q : gquery) : outcome (ganswer * gprob) :=
  match q with
  | QSet x => Ok (GDone, gp_set p x)
  | QCost => v <- cw_cost (gp_cost p) (gp_scope p) ;; Ok (GNumber v, p)
  | QGradient s => m <- cw_jacobian (gp_cost p) (gp_scope p) s ;; Ok (GMatrix m, p)
  | QValues i => c <- of_option (nth_error (gp_cons p) i) ;; v <- nw_values c (gp_scope p) ;; Ok (GVector v, p)
  | QJacobian i s => c <- of_option (nth_error (gp_cons p) i) ;; m <- nw_jacobian c (gp_scope p) s ;; Ok (GMatrix m, p)
  end.
(* source: no code of its own: a sequence of calls *)
Fixpoint gp_run (p : gprob) (l : list gquery) : outcome (list ganswer * gprob) :=
  match l with
  | [] => Ok ([], p)
  | q :: l => '(a, p) <- gp_ask p q ;; '(r, p) <- gp_run p l ;; Ok (a :: r, p)
  end.
End GLO.
Arguments cont_err T : clear implicits.
Arguments functional T : clear implicits.
Arguments gvar T : clear implicits.
Arguments component T : clear implicits.
Arguments vars T : clear implicits.
Arguments costw T : clear implicits.
Arguments conw T : clear implicits.
Arguments gprob T : clear implicits.
Arguments gquery T : clear implicits.
Arguments ganswer T : clear implicits.
