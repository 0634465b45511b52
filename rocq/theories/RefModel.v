(** Vectors that an Interpolator hands out: solve_interpolation returns an
    Eigen::Ref to its member sol_buffer_, get_coeff_derivative_wrt_tau one to its
    member coefficients_vector_.  Nothing is copied; the bindings turn them into
    numpy arrays that are views of the same memory (pybind11 passes an Eigen::Ref
    through by reference unless told otherwise, and no policy is given in
    bindings/bindings.cpp 352-357).

    A program is a list of statements.  Statement k creates variable k; a
    statement names objects and vectors by the statements that created them.
    Interval lengths and waypoints are given as values.  A program stops at its
    first exception. *)
From Coq Require Import List Arith Bool ZArith.
From Verif Require Import Num Outcome LinAlg LegendreModel LagrangeModel Basis0101Model BasisModel ToolsModel GSplineModel InterpModel.
Import ListNotations.
Local Open Scope num_scope.

Section Refs.
Context {T : Type} `{Num T}.

(** [dst.noalias() = m * rhs]: dst is set to zero, then column after column is
    added; entry j of rhs is read when column j is.  [src] says where rhs lives: it
    may look at what dst holds by then. *)
(* source: coefficients_vector_.noalias() = mat * _coeff, src/Interpolator.cpp 339; Eigen's product of a sparse matrix stored by columns with a vector *)
Fixpoint acc_cols (m : smat T) (src : (nat -> option T) -> nat -> option T) (n : nat) : nat -> option T :=
  match n with
  | O => fun _ => Some n0
  | S k => let d := acc_cols m src k in
      fun i => match sget m i k with
               | None => d i
               | Some x => olift2 nadd (d i) (option_map (fun y => x * y) (src d k))
               end
  end.

(** get_coeff_derivative_wrt_tau whose argument [_coeff] is a reference to
    coefficients_vector_ of the same object *)
(* source: src/Interpolator.cpp 255-345 *)
Definition ip_coeff_tau_self (lu : smat T -> option (vec T -> vec T)) (ip : interp T) (tau : vec T) (idx : nat)
  : outcome (vec T * interp T) :=
  bad <- any_below tau (ten_m 6) ;;
  if bad then Throw InvalidArgument
  else if negb (Nat.eqb (vlen tau) (ip_n ip)) || Nat.leb (ip_n ip) idx then Ok (ip_coef ip, ip)
  else
    m <- of_option (nth_error (ip_ders ip) idx) ;;
    '(bufs, m) <- fill_matrix_tau (ip_basis ip) (ip_codom ip) (ip_n ip) tau idx (ip_pos ip, ip_der ip) m ;;
    p <- (if Nat.eqb (scols m) (vlen (ip_coef ip)) then Ok (mkvec (srows m) (acc_cols m (fun d => d) (scols m))) else UB) ;;
    '(pos, der, a) <- fill_matrix (ip_basis ip) (ip_codom ip) (ip_n ip) tau bufs (ip_mat ip) ;;
    match lu a with
    | None => UB
    | Some f =>
      let r := vscale (f p) (- n1) in
      Ok (r, mkip (ip_basis ip) (ip_bst ip) (ip_codom ip) (ip_n ip) a (ip_rhs ip) r pos der (list_set (ip_ders ip) idx m) (ip_sol ip))
    end.

(** an argument: a vector of the caller, or a variable *)
(* source: const Eigen::Ref<const Eigen::VectorXd> arguments, include/gsplines/Interpolator.hpp 58-65 *)
Inductive operand := Val (v : vec T) | Var (x : nat).
(** statements; [lu] is the solver during that call *)
(* source: include/gsplines/Interpolator.hpp 33-37, 42-43, 58-65; bindings/pybasis.hpp 70-82; bindings/bindings.cpp 344-359 *)
Inductive stmt :=
| New (c n : nat) (b : basis T) (bst : bstate T)
| Solve (lu : smat T -> option (vec T -> vec T)) (i : nat) (tau : vec T) (wp : mat T)
| Interp (lu : smat T -> option (vec T -> vec T)) (i : nat) (tau : vec T) (wp : mat T)
| Tau (lu : smat T -> option (vec T -> vec T)) (i : nat) (coef : operand) (tau : vec T) (idx : nat)
| Copy (x : nat)
| Drop (i : nat).

(** what a variable is: an object (or one that is gone), a vector of its own (for
    a spline: its coefficients), or a reference to a buffer of object i, which had
    k entries when the reference was made *)
(* source: Eigen::Ref stores a pointer and a size; include/gsplines/Interpolator.hpp 26-30 *)
Inductive cell := CObj (ip : interp T) | CGone | COwn (v : vec T) | CSol (i k : nat) | CCoef (i k : nat).

(* source: use of an object, src/Interpolator.cpp *)
Definition object (st : list cell) (i : nat) : outcome (interp T) :=
  match nth_error st i with Some (CObj ip) => Ok ip | _ => UB end.
(** reading through a reference: no entries, nothing to read; a buffer of another
    size has been allocated anew *)
(* source: Eigen::Ref<const Eigen::VectorXd>, src/Interpolator.cpp 344, 365, 369 *)
Definition through (b : vec T) (k : nat) : outcome (vec T) :=
  if Nat.eqb (vlen b) k then Ok b else if Nat.eqb k 0 then Ok (vnew 0) else UB.
(* source: Eigen::Ref<const Eigen::VectorXd>, src/Interpolator.cpp 344, 365, 369 *)
Definition read (st : list cell) (x : nat) : outcome (vec T) :=
  match nth_error st x with
  | Some (COwn v) => Ok v
  | Some (CSol i k) => match nth_error st i with Some (CObj ip) => through (ip_sol ip) k | _ => if Nat.eqb k 0 then Ok (vnew 0) else UB end
  | Some (CCoef i k) => match nth_error st i with Some (CObj ip) => through (ip_coef ip) k | _ => if Nat.eqb k 0 then Ok (vnew 0) else UB end
  | _ => UB
  end.

(** get_coeff_derivative_wrt_tau with an argument that may be a reference to the buffer it writes *)
(* source: src/Interpolator.cpp 255-345 *)
Definition tau_call (lu : smat T -> option (vec T -> vec T)) (st : list cell) (i : nat) (ip : interp T) (coef : operand) (tau : vec T) (idx : nat)
  : outcome (vec T * interp T) :=
  match coef with
  | Val v => ip_coeff_tau lu ip v tau idx
  | Var x =>
      match nth_error st x with
      | Some (CCoef i' k) =>
          if Nat.eqb i' i && Nat.eqb (vlen (ip_coef ip)) k then ip_coeff_tau_self lu ip tau idx
          else v <- read st x ;; ip_coeff_tau lu ip v tau idx
      | _ => v <- read st x ;; ip_coeff_tau lu ip v tau idx
      end
  end.

(* source: src/Interpolator.cpp 9-45, 47, 156-165, 255-370; Eigen: a VectorXd made of a Ref is a copy *)
Definition exec (s : stmt) (st : list cell) : outcome (list cell) :=
  match s with
  | New c n b bst => ip <- ip_ctor c n b bst ;; Ok (st ++ [CObj ip])
  | Solve lu i tau wp =>
      ip <- object st i ;; '(sol, ip') <- ip_solve lu ip tau wp ;; Ok (list_set st i (CObj ip') ++ [CSol i (vlen sol)])
  | Interp lu i tau wp =>
      ip <- object st i ;; '(g, ip') <- ip_interpolate lu ip tau wp ;; Ok (list_set st i (CObj ip') ++ [COwn (gs_coef g)])
  | Tau lu i coef tau idx =>
      ip <- object st i ;; '(r, ip') <- tau_call lu st i ip coef tau idx ;; Ok (list_set st i (CObj ip') ++ [CCoef i (vlen r)])
  | Copy x => v <- read st x ;; Ok (st ++ [COwn v])
  | Drop i => _ <- object st i ;; Ok (list_set st i CGone ++ [CGone])
  end.
(* source: no code of its own: a program *)
Fixpoint run (p : list stmt) (st : list cell) : outcome (list cell) :=
  match p with [] => Ok st | s :: p' => st' <- exec s st ;; run p' st' end.
End Refs.
Arguments operand : clear implicits.
Arguments stmt : clear implicits.
Arguments cell : clear implicits.
