(** Model of gsplines::functional_analysis::SobolevNorm (include/gsplines/FunctionalAnalysis/Sobolev.hpp 18-53,
    src/FunctionalAnalysis/Sobolev.cpp 10-95).

    The members matrix_ and matrix_2_ are scratch: matrix_ is set to zero before each use, matrix_2_ is never
    used; neither is part of the state here.  [lu] is the sparse solver, as in InterpModel.  The counters of the source are
    unsigned int; 2^32 intervals or components are not modelled. *)
From Coq Require Import List Arith Bool ZArith.
From Verif Require Import Num Outcome LinAlg LegendreModel BasisModel ToolsModel GSplineModel InterpModel.
Import ListNotations.
Local Open Scope num_scope.

Section Sobolev.
Context {T : Type} `{Num T}.

(** Sobolev.hpp 23-29: basis_, num_intervals_, codom_dim_, interpolator_, weights_, waypoints_ *)
Record sobnorm := mksn {
  sn_basis : basis T;
  sn_n : nat;
  sn_codom : nat;
  sn_ip : interp T;
  sn_weights : list (nat * T);
  sn_wp : mat T
}.

(** constructor, Sobolev.cpp 10-17: [rows() - 1] wraps without waypoints *)
Definition sn_ctor (wp : mat T) (b : basis T) (bst : bstate T) (ws : list (nat * T)) : outcome sobnorm :=
  n <- of_option (usub1 (mrows wp)) ;;
  ip <- ip_ctor (mcols wp) n b bst ;;
  Ok (mksn b n (mcols wp) ip ws wp).

(** get_coefficient_segment, GSpline.cpp 168-177 *)
Definition get_segment (v : vec T) (dim codom iv cc : nat) : outcome (vec T) :=
  vsegment v (iv * dim * codom + dim * cc) dim.

(** lines 81-84 and 52-55; [add] is the virtual function that is called.  The whole matrix is scaled after each term. *)
(* source: src/FunctionalAnalysis/Sobolev.cpp 81-84, 52-55 *)
Fixpoint weighted (add : nat -> mat T -> outcome (mat T)) (ws : list (nat * T)) (m : mat T) : outcome (mat T) :=
  match ws with
  | [] => Ok m
  | (k, w) :: r => m <- add k m ;; weighted add r (mscale m w)
  end.

(** [v1.transpose() * m * v2] *)
(* source: src/FunctionalAnalysis/Sobolev.cpp 61, 90 *)
Definition bilinear (v1 : vec T) (m : mat T) (v2 : vec T) : outcome T :=
  row <- mvmul (mtrans m) v1 ;; vdot row v2.

(** inner_prod, 68-95 *)
(* source: src/FunctionalAnalysis/Sobolev.cpp 68-95 *)
Definition sn_inner (sn : sobnorm) (tau v1 v2 : vec T) : outcome T :=
  let dim := b_dim (sn_basis sn) in
  for_ 0 (sn_n sn) (fun iv acc =>
    t <- vread tau iv ;;
    m <- weighted (b_add_gram (sn_basis sn) t) (sn_weights sn) (mzero dim dim) ;;
    for_ 0 (sn_codom sn) (fun cc acc =>
      x <- get_segment v1 dim (sn_codom sn) iv cc ;;
      y <- get_segment v2 dim (sn_codom sn) iv cc ;;
      q <- bilinear x m y ;;
      Ok (acc + q)) acc) n0.

(* source: the member interpolator_, include/gsplines/FunctionalAnalysis/Sobolev.hpp 27 *)
Definition sn_with (sn : sobnorm) (ip : interp T) : sobnorm :=
  mksn (sn_basis sn) (sn_n sn) (sn_codom sn) ip (sn_weights sn) (sn_wp sn).

(** operator(), 19-26.  [coeff] refers to sol_buffer_ of the interpolator *)
(* source: src/FunctionalAnalysis/Sobolev.cpp 19-26 *)
Definition sn_value (lu : smat T -> option (vec T -> vec T)) (sn : sobnorm) (tau : vec T) : outcome (T * sobnorm) :=
  '(coef, ip) <- ip_solve lu (sn_ip sn) tau (sn_wp sn) ;;
  r <- sn_inner sn tau coef coef ;;
  Ok (r, sn_with sn ip).

(** one pass of the loop 42-65.  get_coeff_derivative_wrt_tau changes coefficients_vector_, not sol_buffer_, so [coef] stays *)
(* source: src/FunctionalAnalysis/Sobolev.cpp 42-65 *)
Definition sn_grad_step (lu : smat T -> option (vec T -> vec T)) (sn : sobnorm) (tau coef : vec T) (iv : nat)
  (st : interp T * vec T) : outcome (interp T * vec T) :=
  let dim := b_dim (sn_basis sn) in
  let '(ip, buff) := st in
  '(dy, ip) <- ip_coeff_tau lu ip coef tau iv ;;
  t <- vread tau iv ;;
  m <- weighted (b_add_gram_tau (sn_basis sn) t) (sn_weights sn) (mzero dim dim) ;;
  r <- for_ 0 (sn_codom sn) (fun cc acc =>
         x <- get_segment coef dim (sn_codom sn) iv cc ;;
         q <- bilinear x m x ;;
         Ok (acc + q)) n0 ;;
  ip2 <- sn_inner sn tau coef dy ;;
  buff <- vwrite buff iv (r + c2 * ip2) ;;
  Ok (ip, buff).
(** deriv_wrt_interval_len, 28-66: the buffer and the object afterwards *)
(* source: src/FunctionalAnalysis/Sobolev.cpp 28-66 *)
Definition sn_grad (lu : smat T -> option (vec T -> vec T)) (sn : sobnorm) (tau buff : vec T) : outcome (vec T * sobnorm) :=
  '(coef, ip) <- ip_solve lu (sn_ip sn) tau (sn_wp sn) ;;
  '(ip, buff) <- for_ 0 (sn_n sn) (sn_grad_step lu sn tau coef) (ip, buff) ;;
  Ok (buff, sn_with sn ip).

End Sobolev.
Arguments sobnorm : clear implicits.
