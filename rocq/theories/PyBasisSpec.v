(** Which variables of a Python program hold bases of the library, read off the text of the program. *)
From Coq Require Import List Arith.
From Verif Require Import Num Outcome LinAlg BasisModel PyBasisModel.
Import ListNotations.

Inductive kind := Library | Python.

Section Spec.
Context {T : Type} `{Num T}.
(** the variables that hold bases after a statement that succeeds *)
Definition kinds_after (k : list kind) (s : pstmt T) : list kind :=
  match s with
  | PCpp _ _ | PGetBasis _ => k ++ [Library]
  | PDefine _ => k ++ [Python]
  | _ => k
  end.
(** the variable that is handed to a constructor of a spline, an interpolator or a norm *)
Definition handed (s : pstmt T) : option nat :=
  match s with PNew i _ _ _ _ _ | PInterp i _ _ | PNorm i _ => Some i | _ => None end.
Definition hands_python (k : list kind) (s : pstmt T) : Prop := exists i, handed s = Some i /\ nth_error k i = Some Python.
Definition kinds (l : list (pstmt T)) : list kind := fold_left kinds_after l [].
(** no statement hands a Python basis to a constructor *)
Definition clean (l : list (pstmt T)) : Prop := forall l1 s l2, l = l1 ++ s :: l2 -> ~ hands_python (kinds l1) s.
(** sizes that the constructors do not check: a basis of the library has at least two functions, waypoints have a row *)
Definition sized (s : pstmt T) : Prop :=
  match s with PCpp b _ => 2 <= b_dim b | PNorm _ wp => 1 <= mrows wp | _ => True end.
(** a spline that owns a basis of the library and has the right number of coefficients for some number of intervals *)
Definition owns (g : pspline T) : Prop :=
  exists b s n, ps_basis g = Some (Cpp b s) /\ 2 <= b_dim b /\ vlen (ps_coef g) = n * b_dim b * ps_codom g.
End Spec.
