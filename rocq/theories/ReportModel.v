(** The two global variables [last_error] and [last_relative_error] that the comparisons write
    (src/Tools.cpp 6-75, include/gsplines/Tools.hpp 7-8), and the spline operations that call the comparisons. *)
From Coq Require Import List Arith Bool.
From Verif Require Import Num Outcome LinAlg BasisModel ToolsModel FunModel GSplineModel GLLModel.
Import ListNotations.
Local Open Scope num_scope.

Section Report.
Context {T : Type} `{Num T}.

(* source: include/gsplines/Tools.hpp 7-8, src/Tools.cpp 6-7 *)
Record report := mkrep { last_error : T; last_relative : T }.
(** one store *)
(* source: src/Tools.cpp 18-19, 40-41, 60-61, 72-73 *)
Inductive write := WErr (x : T) | WRel (x : T).
(* source: src/Tools.cpp 18-19, 40-41, 60-61, 72-73 *)
Definition store (r : report) (w : write) : report :=
  match w with WErr x => mkrep x (last_relative r) | WRel x => mkrep (last_error r) x end.
(* source: no code of its own: stores in order *)
Definition after (r : report) (l : list write) : report := fold_left store l r.

(** A call: its outcome and the stores it makes, in order (also those made before an exception). *)
(* source: no code of its own *)
Definition logged (A : Type) := (outcome A * list write)%type.
(* source: no code of its own *)
Definition quiet {A} (m : outcome A) : logged A := (m, []).
(* source: no code of its own: one call after another *)
Definition lbind {A B} (m : logged A) (k : A -> logged B) : logged B :=
  match fst m with Ok a => (fst (k a), snd m ++ snd (k a)) | Throw e => (Throw e, snd m) | UB => (UB, snd m) end.
(** [and] evaluates its right side only when needed *)
(* source: [and] in src/GSpline.cpp 196-201, src/Tools.cpp 46-54 *)
Definition land (a b : logged bool) : logged bool := lbind a (fun x => if x then b else quiet (Ok false)).

(* source: src/Tools.cpp 8-21 *)
Definition l_eq (lhs rhs tol : T) : logged bool :=
  let err := nabs (lhs - rhs) in
  let lhs_abs := nabs lhs in
  let rhs_abs := nabs rhs in
  if (lhs_abs <? tol) || (rhs_abs <? tol) then quiet (Ok (err <? tol))
  else (Ok ((err <? lhs_abs * tol) && (err <? rhs_abs * tol)), [WErr err; WRel (nmax (err / lhs_abs) (err / rhs_abs))]).
(* source: src/Tools.cpp 23-44 *)
Definition l_eq_mat (a b : mat T) (tol : T) : logged bool :=
  if negb (Nat.eqb (mrows a) (mrows b) && Nat.eqb (mcols a) (mcols b)) then quiet (Ok false)
  else if Nat.eqb (mrows a * mcols a) 0 then quiet (Ok true)
  else
    lbind (quiet (maxcoeff (mrows a) (mcols a) (fun i j => x <- mread a i j ;; y <- mread b i j ;; Ok (nabs (x - y))))) (fun err =>
    lbind (quiet (maxcoeff (mrows a) (mcols a) (fun i j => x <- mread a i j ;; Ok (nabs x)))) (fun lhs_max =>
    lbind (quiet (maxcoeff (mrows b) (mcols b) (fun i j => x <- mread b i j ;; Ok (nabs x)))) (fun rhs_max =>
    if (lhs_max <? tol) || (rhs_max <? tol) then quiet (Ok (err <? tol))
    else (Ok ((err / lhs_max <? tol) && (err / rhs_max <? tol)), [WErr err; WRel (nmax (err / lhs_max) (err / rhs_max))])))).
(* source: src/Tools.cpp 23-44 on vectors *)
Definition l_eq_vec (a b : vec T) (tol : T) : logged bool := l_eq_mat (vmat a) (vmat b) tol.
(* source: src/Tools.cpp 56-63 *)
Definition l_zero (x tol : T) : logged bool := (Ok (nabs x <? tol), [WErr (nabs x); WRel (nabs x)]).
(* source: src/Tools.cpp 65-75 *)
Definition l_zero_mat (a : mat T) (tol : T) : logged bool :=
  if Nat.eqb (mrows a * mcols a) 0 then quiet (Ok false)
  else lbind (quiet (maxcoeff (mrows a) (mcols a) (fun i j => x <- mread a i j ;; Ok (nabs x)))) (fun m => (Ok (m <? tol), [WErr m; WRel m])).
(* source: src/Tools.cpp 77-79 *)
Definition l_zero_spline (g : gspline T) (tol : T) : logged bool := l_zero_mat (vmat (gs_coef g)) tol.
(* source: src/Basis/Basis.cpp 220-231 *)
Definition l_basis_eqb (a b : basis T) : logged bool :=
  if negb (bname_eqb (b_name a) (b_name b)) then quiet (Ok false)
  else if negb (Nat.eqb (b_dim a) (b_dim b)) then quiet (Ok false)
  else if negb (Nat.eqb (vlen (b_params a)) (vlen (b_params b))) then quiet (Ok false)
  else l_eq_vec (b_params a) (b_params b) (ten_m 6).
(* source: src/GSpline.cpp 196-201 *)
Definition l_space (g h : gspline T) : logged bool :=
  land (l_basis_eqb (gs_basis g) (gs_basis h))
    (land (quiet (Ok (Nat.eqb (gs_codom g) (gs_codom h)))) (l_eq_vec (gs_tau g) (gs_tau h) (ten_m 8))).
(* source: src/Tools.cpp 46-54 *)
Definition l_eq_spline (g h : gspline T) (tol : T) : logged bool :=
  land (l_eq_vec (gs_coef g) (gs_coef h) tol)
    (land (l_eq_vec (gs_tau g) (gs_tau h) tol) (l_basis_eqb (gs_basis g) (gs_basis h))).

(** the member function same_domain *)
(* source: src/Functions/FunctionBase.cpp 92-97 *)
Definition l_ends (d1 d2 : T * T) : logged bool := land (l_eq (snd d1) (snd d2) dom_tol) (l_eq (fst d1) (fst d2) dom_tol).

(** ** Operations of splines.  The operators first test whether the operands belong together; nothing else in them compares. *)
(* source: include/gsplines/GSpline.hpp 150-231, src/GSpline.cpp 161-166 *)
Inductive sop :=
| Plus (o : overload) (g h : gspline T) | Minus (o : overload) (g h : gspline T)
| PlusEq (g h : gspline T) | MinusEq (g h : gspline T)
| Equal (g h : gspline T)
| Times (g h : gspline T)                       (** the product of collocation splines *)
| Value (g : gspline T) (pts : vec T) | Deriv (g : gspline T) (k : nat).
(** the stores of one operation *)
(* source: include/gsplines/GSpline.hpp 150-231, src/GSpline.cpp 91-113, 161-166, src/Collocation/GaussLobattoLagrange.cpp 223-358 *)
Definition stores (s : sop) : list write :=
  match s with
  | Plus _ g h | Minus _ g h | PlusEq g h | MinusEq g h => snd (l_space g h)
  | Equal g h => snd (l_eq_spline g h (ten_m 7))
  | Times g h => if same_discretization g h then snd (l_ends (gs_dom g) (gs_dom h)) else []
  | Value _ _ | Deriv _ _ => []
  end.

(** ** Threads.  The globals are never read by the library, so a thread is the list of its remaining stores. *)
(* source: no code of its own: sequentially consistent interleaving *)
Fixpoint cut (l : list (list write)) (i : nat) : option (write * list (list write)) :=
  match l, i with
  | [], _ => None
  | [] :: _, O => None
  | (w :: t) :: l', O => Some (w, t :: l')
  | t :: l', S i' => match cut l' i' with Some (w, l'') => Some (w, t :: l'') | None => None end
  end.
(* source: no code of its own: sequentially consistent interleaving *)
Inductive sstep : list (list write) * report -> list (list write) * report -> Prop :=
| sstep_one i l w l' r : cut l i = Some (w, l') -> sstep (l, r) (l', store r w).
(* source: no code of its own *)
Inductive ssteps : list (list write) * report -> list (list write) * report -> Prop :=
| ssteps_nil c : ssteps c c
| ssteps_cons c c' c'' : sstep c c' -> ssteps c' c'' -> ssteps c c''.
End Report.
Arguments report T : clear implicits.
Arguments write T : clear implicits.
Arguments sop T : clear implicits.
