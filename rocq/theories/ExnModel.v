(** What a collocation spline holds when one of its mutating operations is left by an exception: the
    operations of GLLModel.v and the compound assignments of GSplineModel.v as sequences of changes of the
    object (src/Collocation/GaussLobattoLagrange.cpp 60-122, GaussLobattoLagrange.hpp 134-161,
    GSpline.hpp 216-231). *)
From Coq Require Import List Arith Bool.
From Verif Require Import Num Outcome LinAlg LegendreModel LagrangeModel Basis0101Model BasisModel FunModel GSplineModel GLModel GLLModel.
Import ListNotations.
Local Open Scope num_scope.

(** A member function: from the object to the object afterwards and the way the call ended.  After [Throw] the
    first component is what the caller finds in the object when it catches; after [UB] it means nothing. *)
(* source: no code of its own: statements of a member function, executed in order *)
Definition member (S A : Type) : Type := S -> S * outcome A.
(* source: no code of its own: sequencing *)
Definition mbind {S A B} (m : member S A) (k : A -> member S B) : member S B :=
  fun s => match m s with
           | (s', Ok a) => k a s'
           | (s', Throw e) => (s', Throw e)
           | (s', UB) => (s', UB)
           end.
Notation "x <~ m ;; k" := (mbind m (fun x => k)) (at level 61, m at next level, right associativity).
(** a statement that reads the object only *)
(* source: no code of its own: evaluation of an expression *)
Definition reads {S A} (f : S -> outcome A) : member S A := fun s => (s, f s).
(** a statement that changes the object *)
(* source: no code of its own: assignment to members *)
Definition changes {S} (f : S -> S) : member S unit := fun s => (f s, Ok tt).
(* source: no code of its own: a counted loop *)
Fixpoint mfor_n {S A} (lo n : nat) (body : nat -> A -> member S A) (a : A) : member S A :=
  match n with
  | O => reads (fun _ => Ok a)
  | Datatypes.S n' => a' <~ body lo a ;; mfor_n (Datatypes.S lo) n' body a'
  end.

Section Exn.
Context {T : Type} `{Num T}.

(* source: include/gsplines/Functions/FunctionBase.hpp 133-140 *)
Definition set_domain (d : T * T) (g : gspline T) : gspline T :=
  mkgs d (gs_codom g) (gs_coef g) (gs_tau g) (gs_basis g) (gs_bst g) (gs_buf g).
(* source: domain_interval_lengths_ = ..., src/Collocation/GaussLobattoLagrange.cpp 97-99 *)
Definition set_tau (tau : vec T) (g : gspline T) : gspline T :=
  mkgs (gs_dom g) (gs_codom g) (gs_coef g) tau (gs_basis g) (gs_bst g) (gs_buf g).

(** operator=(const&) and operator=(&&), GaussLobattoLagrange.cpp 60-86; [that] is the right operand before
    the call (with [self] it is the object itself) *)
Definition m_assign (move self : bool) (that : gspline T) : member (gspline T) unit :=
  _ <~ reads (fun _ => require (negb (move && self))) ;;
  _ <~ reads (fun s => require (same_discretization s that)) ;;
  _ <~ reads (fun s => require (Nat.eqb (gs_codom s) (gs_codom that))) ;;
  _ <~ changes (set_domain (gs_dom that)) ;;
  changes (fun s => with_coef s (gs_coef that)).

(** operator+= and operator-=, GSpline.hpp 216-231 *)
Definition m_pluseq (that : gspline T) : member (gspline T) unit :=
  _ <~ reads (fun s => check_space s that) ;;
  c <~ reads (fun s => vmap2 nadd (gs_coef s) (gs_coef that)) ;;
  changes (fun s => with_coef s c).
(* source: include/gsplines/GSpline.hpp 224-231 *)
Definition m_minuseq (that : gspline T) : member (gspline T) unit :=
  _ <~ reads (fun s => check_space s that) ;;
  c <~ reads (fun s => vmap2 nsub (gs_coef s) (gs_coef that)) ;;
  changes (fun s => with_coef s c).

(** operator=(FunctionBase), GaussLobattoLagrange.cpp 88-122: the domain (96) and the lengths (97-99) are set
    before the function is evaluated (112); the coefficients are written interval by interval (116-117) *)
Definition m_assign_fun (self : bool) (f : fobj T) : member (gspline T) unit :=
  _ <~ reads (fun _ => require (negb self)) ;;
  _ <~ reads (fun s => require (Nat.eqb (gs_codom s) (fo_codom f))) ;;
  _ <~ changes (set_domain (fo_dom f)) ;;
  total <~ reads (fun s => of_option (osum (gs_n s) (vget (gs_tau s)))) ;;
  _ <~ changes (fun s => set_tau (vscale (gs_tau s) ((snd (fo_dom f) - fst (fo_dom f)) / total)) s) ;;
  s0 <~ reads (fun s => Ok s) ;;
  _ <~ mfor_n 0 (gs_n s0) (fun iv (st : mat T * T) =>
      ti <~ reads (fun s => vread (gs_tau s) iv) ;;
      lv <~ reads (fun s => fo_val f (gl_affine (b_params (gs_basis s)) ti (snd st)) (fst st)) ;;
      c <~ reads (fun s => vset_sized (gs_coef s) (iv * gs_dim s * gs_codom s) (gs_dim s * gs_codom s) (mflat lv)) ;;
      _ <~ changes (fun s => with_coef s c) ;;
      reads (fun _ => Ok (lv, snd st + ti))) (mnew (gs_dim s0) (gs_codom s0), fst (fo_dom f)) ;;
  reads (fun _ => Ok tt).

(** set_from_array, GaussLobattoLagrange.hpp 134-161.  The domain is set (139) before the number of elements is
    checked (141-144).  [vals]: what [_fun] does with each element, which may be to throw. *)
Definition m_set_from_array (dom : T * T) (vals : list (outcome (vec T))) : member (gspline T) unit :=
  _ <~ changes (set_domain dom) ;;
  _ <~ reads (fun s => if Nat.eqb (length vals) (gs_dim s * gs_n s) then Ok tt else Throw RuntimeError) ;;
  total <~ reads (fun s => of_option (osum (gs_n s) (vget (gs_tau s)))) ;;
  _ <~ changes (fun s => set_tau (vscale (gs_tau s) ((snd (gs_dom s) - fst (gs_dom s)) / total)) s) ;;
  mfor_n 0 (length vals) (fun idx (_ : unit) =>
      v <~ reads (fun _ => o <- of_option (nth_error vals idx) ;; o) ;;
      g <~ reads (fun s =>
        m <- value_block s (idx / gs_dim s) ;;
        if Nat.eqb (vlen v) (mcols m)
        then set_block s (idx / gs_dim s) (mmap (fun i j x => if Nat.eqb i (idx mod gs_dim s) then vget v j else x) m)
        else UB) ;;
      changes (fun _ => g)) tt.
End Exn.
