(** Spline variables of a program: what copy and move constructors of splines and bases take from their source,
    and what is left in it (src/GSpline.cpp 15-40, include/gsplines/GSpline.hpp 145-264, include/gsplines/Basis/Basis.hpp 78-90,
    src/Basis/BasisLegendre.cpp 38-47, src/Basis/BasisLagrange.cpp 65-79, src/Basis/Basis0101.cpp 147-152). *)
From Coq Require Import List Arith Bool.
From Verif Require Import Num Outcome LinAlg BasisModel ToolsModel GSplineModel.
Import ListNotations.
Local Open Scope num_scope.

Section Move.
Context {T : Type} `{Num T}.

(** A GSpline together with parameters_float_ of the basis it owns.  In a live object that vector holds the parameters of the
    basis; a move empties it while the basis object itself stays alive. *)
(* source: include/gsplines/GSpline.hpp 29-33, include/gsplines/Basis/Basis.hpp 20-27 *)
Record sobj := mkso { so_g : gspline T; so_par : vec T }.

(** What the move constructors leave of a basis.  derivative_matrices_buffer_ is a vector and is left empty.  domain_points_ and
    barycentric_weights_ of BasisLagrange are const, so [std::move] copies them.  dim_ and name_ are copied. *)
(* source: src/Basis/BasisLegendre.cpp 43-47, src/Basis/BasisLagrange.cpp 73-79, include/gsplines/Basis/BasisLagrange.hpp 15-17,
   src/Basis/Basis0101.cpp 150-152 (implicit move constructor) *)
Definition basis_left (b : basis T) : basis T :=
  match b with
  | BLegendre d _ => BLegendre d []
  | BLagrange p w _ => BLagrange p w []
  | B0101 a => B0101 a
  end.
(** derivative_matrix_array_ is moved; the maps of sparse matrices are not mentioned by the constructors *)
(* source: include/gsplines/Basis/Basis.hpp 85-90 *)
Definition bs_left (s : bstate T) : bstate T := mkbs [] (bs_cont s) (bs_der s).
(** What the move constructor leaves of a spline: the base class is copied, the two vectors are left with size 0, the unique_ptr
    still owns its (emptied) basis. *)
(* source: src/GSpline.cpp 35-40 *)
Definition gs_left (g : gspline T) : gspline T :=
  mkgs (gs_dom g) (gs_codom g) (vnew 0) (vnew 0) (basis_left (gs_basis g)) (bs_left (gs_bst g)) (gs_buf g).

(** ** One object *)
(* source: src/GSpline.cpp 15-33, include/gsplines/Basis/Basis.hpp 78-83 *)
Definition so_copy (o : sobj) : outcome sobj := g <- gs_copy (so_g o) ;; Ok (mkso g (so_par o)).
(** the new object, and what the old one is now *)
(* source: src/GSpline.cpp 35-40 *)
Definition so_move (o : sobj) : sobj * sobj := (mkso (gs_move (so_g o)) (so_par o), mkso (gs_left (so_g o)) (vnew 0)).
(** the basis functions that the object computes: basis0101 reads its parameter from parameters_float_ at every call
    (Basis0101.cpp 33, 39, 56), which is out of bounds when that vector is empty *)
(* source: src/Basis/Basis0101.cpp 33-39, src/Basis/BasisLagrange.cpp 33-39 *)
Definition so_basis (o : sobj) : outcome (basis T) :=
  match gs_basis (so_g o) with
  | B0101 _ => a <- vread (so_par o) 0 ;; Ok (B0101 a)
  | b => Ok b
  end.
(* source: no code of its own: the object with the basis functions it computes *)
Definition with_basis (g : gspline T) (b : basis T) : gspline T :=
  mkgs (gs_dom g) (gs_codom g) (gs_coef g) (gs_tau g) b (gs_bst g) (gs_buf g).
(** operator().  Without points the basis is not asked; there is no exception in value_impl, so the order in which the two kinds of
    out of bounds reads are met does not matter. *)
(* source: include/gsplines/Functions/FunctionBase.hpp 79-84, src/GSpline.cpp 91-113 *)
Definition so_value (o : sobj) (pts : vec T) : outcome (mat T) :=
  if Nat.eqb (vlen pts) 0 then gs_value (so_g o) pts
  else b <- so_basis o ;; gs_value (with_basis (so_g o) b) pts.
(** Basis::operator== on the vectors the two bases hold *)
(* source: src/Basis/Basis.cpp 220-231 *)
Definition so_basis_eqb (a b : sobj) : outcome bool :=
  let ba := gs_basis (so_g a) in let bb := gs_basis (so_g b) in
  if negb (bname_eqb (b_name ba) (b_name bb)) then Ok false
  else if negb (Nat.eqb (b_dim ba) (b_dim bb)) then Ok false
  else if negb (Nat.eqb (vlen (so_par a)) (vlen (so_par b))) then Ok false
  else approx_eq_vec (so_par a) (so_par b) (ten_m 6).
(* source: src/GSpline.cpp 196-201 *)
Definition so_space (a b : sobj) : outcome bool :=
  oand (so_basis_eqb a b)
    (oand (Ok (Nat.eqb (gs_codom (so_g a)) (gs_codom (so_g b)))) (approx_eq_vec (gs_tau (so_g a)) (gs_tau (so_g b)) (ten_m 8))).
(* source: include/gsplines/GSpline.hpp 151-153 *)
Definition so_check (a b : sobj) : outcome unit := s <- so_space a b ;; if s then Ok tt else Throw InvalidArgument.
(* source: assignments to coefficients_, include/gsplines/GSpline.hpp 150-231 *)
Definition so_with (o : sobj) (c : vec T) : sobj := mkso (with_coef (so_g o) c) (so_par o).
(* source: coefficients_ *)
Definition so_coef (o : sobj) : vec T := gs_coef (so_g o).

(** ** Programs *)
(** One statement.  Every statement except the two assignments declares one more variable; variables are numbered in the order of
    their declaration.  A flag tells whether an operand is passed through [std::move]. *)
(* source: no code of its own: uses of the constructors and operators of include/gsplines/GSpline.hpp *)
Inductive stmt :=
| SNew (dom : T * T) (codom n : nat) (b : basis T) (bst : bstate T) (coef tau : vec T)  (** [GSpline z(dom, codom, n, b, coef, tau);] *)
| SCopy (i : nat)                               (** [GSpline z(x);] *)
| SMove (i : nat)                               (** [GSpline z(std::move(x));] *)
| SPlus (ri : bool) (i : nat) (rj : bool) (j : nat)    (** [GSpline z = x + y;] *)
| SMinus (ri : bool) (i : nat) (rj : bool) (j : nat)   (** [GSpline z = x - y;] *)
| SPlusEq (i j : nat)                           (** [x += y;] *)
| SMinusEq (i j : nat)                          (** [x -= y;] *)
| SScale (a : T) (r : bool) (i : nat)           (** [GSpline z = a * x;] *)
| SNeg (r : bool) (i : nat)                     (** [GSpline z = -x;] *)
| SDeriv (k i : nat)                            (** [GSpline z = x.derivate(k);] *)
| STime (l : T) (i : nat).                      (** [GSpline z = x.linear_scaling_new_execution_time(l);] *)

(* source: no code of its own: the variables of a program *)
Fixpoint sput (l : list sobj) (i : nat) (x : sobj) : list sobj :=
  match l, i with
  | [], _ => []
  | _ :: l', O => x :: l'
  | y :: l', S i' => y :: sput l' i' x
  end.
(** naming a variable that does not exist is no C++ program *)
(* source: no code of its own: naming a variable *)
Definition sget_var (st : list sobj) (i : nat) : outcome sobj := of_option (nth_error st i).
(** [return std::move(x);] of a variable that holds [o] by now *)
(* source: include/gsplines/GSpline.hpp 164, 172, 180, 197, 205, 213; src/GSpline.cpp 210, 221 *)
Definition give (st : list sobj) (i : nat) (o : sobj) : list sobj := sput st i (snd (so_move o)) ++ [fst (so_move o)].

(** binary operators.  The first overload of the difference works on a GSplineBase that is moved into the result. *)
(* source: include/gsplines/GSpline.hpp 150-180 *)
Definition so_plus (st : list sobj) (ri : bool) (i : nat) (rj : bool) (j : nat) : outcome (list sobj) :=
  a <- sget_var st i ;; b <- sget_var st j ;; _ <- so_check a b ;;
  match ri, rj with
  | false, false => r <- so_copy a ;; c <- vmap2 nadd (so_coef r) (so_coef b) ;; Ok (st ++ [so_with r c])
  | false, true => c <- vmap2 nadd (so_coef b) (so_coef a) ;; Ok (give st j (so_with b c))
  | true, _ => c <- vmap2 nadd (so_coef a) (so_coef b) ;; Ok (give st i (so_with a c))
  end.
(* source: include/gsplines/GSpline.hpp 182-213 *)
Definition so_minus (st : list sobj) (ri : bool) (i : nat) (rj : bool) (j : nat) : outcome (list sobj) :=
  a <- sget_var st i ;; b <- sget_var st j ;; _ <- so_check a b ;;
  match ri, rj with
  | false, false => r <- so_copy a ;; c <- vmap2 nsub (so_coef r) (so_coef b) ;; Ok (st ++ [fst (so_move (so_with r c))])
  | false, true => c <- vmap2 nsub (so_coef a) (so_coef b) ;; Ok (give st j (so_with b c))
  | true, _ => c <- vmap2 nsub (so_coef a) (so_coef b) ;; Ok (give st i (so_with a c))
  end.
(* source: include/gsplines/GSpline.hpp 215-231 *)
Definition so_assign (f : T -> T -> T) (st : list sobj) (i j : nat) : outcome (list sobj) :=
  a <- sget_var st i ;; b <- sget_var st j ;; _ <- so_check a b ;;
  c <- vmap2 f (so_coef a) (so_coef b) ;; Ok (sput st i (so_with a c)).
(* source: src/GSpline.cpp 203-222 *)
Definition so_scale (a : T) (st : list sobj) (r : bool) (i : nat) : outcome (list sobj) :=
  o <- sget_var st i ;;
  if r then Ok (give st i (so_with o (vscale (so_coef o) a)))
  else z <- so_copy o ;; Ok (st ++ [so_with z (vscale (so_coef z) a)]).
(** derivate: deriv_impl may fill the cache of the source's basis; the result owns a clone of that basis.  get_block is called once
    per interval and component, so an emptied object never asks. *)
(* source: include/gsplines/GSpline.hpp 108-143, include/gsplines/Functions/FunctionInheritanceHelper.hpp 36-38 *)
Definition so_deriv (k : nat) (st : list sobj) (i : nat) : outcome (list sobj) :=
  o <- sget_var st i ;;
  b <- (if Nat.eqb (gs_n (so_g o)) 0 then Ok (gs_basis (so_g o)) else so_basis o) ;;
  '(d, bst) <- gs_deriv_impl (with_basis (so_g o) b) k ;;
  r <- gs_copy d ;;
  let g := so_g o in
  Ok (sput st i (mkso (mkgs (gs_dom g) (gs_codom g) (gs_coef g) (gs_tau g) (gs_basis g) bst (gs_buf g)) (so_par o)) ++ [mkso r (so_par o)]).
(** linear_scaling_new_execution_time: a new basis0101 has its own parameter, the other bases are cloned *)
(* source: include/gsplines/GSpline.hpp 233-264 *)
Definition so_time (l : T) (st : list sobj) (i : nat) : outcome (list sobj) :=
  o <- sget_var st i ;;
  if l <? ten_m 8 then Throw InvalidArgument
  else
    b <- so_basis o ;;
    g <- gs_linear_scaling (with_basis (so_g o) b) l ;;
    Ok (st ++ [mkso g (if is_0101 b then b_params (gs_basis g) else so_par o)]).

(* source: no code of its own: one statement *)
Definition exec (st : list sobj) (s : stmt) : outcome (list sobj) :=
  match s with
  | SNew dom codom n b bst coef tau => g <- gs_ctor dom codom n b bst coef tau ;; Ok (st ++ [mkso g (b_params b)])
  | SCopy i => o <- sget_var st i ;; z <- so_copy o ;; Ok (st ++ [z])
  | SMove i => o <- sget_var st i ;; Ok (give st i o)
  | SPlus ri i rj j => so_plus st ri i rj j
  | SMinus ri i rj j => so_minus st ri i rj j
  | SPlusEq i j => so_assign nadd st i j
  | SMinusEq i j => so_assign nsub st i j
  | SScale a r i => so_scale a st r i
  | SNeg r i => so_scale (- n1) st r i
  | SDeriv k i => so_deriv k st i
  | STime l i => so_time l st i
  end.
(* source: no code of its own: a program *)
Fixpoint run (st : list sobj) (p : list stmt) : outcome (list sobj) :=
  match p with [] => Ok st | s :: p' => st' <- exec st s ;; run st' p' end.

End Move.
Arguments sobj : clear implicits.
Arguments stmt : clear implicits.
