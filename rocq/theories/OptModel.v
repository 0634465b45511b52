(** Model of the time-allocation problem handed to the external optimiser (src/Optimization/ipopt_interface.cpp,
    include/gsplines/Optimization/ipopt_interface.hpp) and of the paths computed with it (src/Optimization/ipopt_solver.cpp 104-227).

    IPOPT and the ifopt layer are not part of the repository.  They are an argument: a [session], which puts questions to the problem
    objects, one after the other, each one depending on the answers so far, and ends with a return status or with an exception.
    [lu] is the sparse solver of Eigen, as in InterpModel.

    Simplification: an exception inside GetCost or the cost Jacobian leaves the SobolevNorm member as it was before the call. *)
From Coq Require Import List Arith Bool ZArith.
From Verif Require Import Num Outcome LinAlg LegendreModel BasisModel ToolsModel GSplineModel InterpModel SobolevModel.
Import ListNotations.
Local Open Scope num_scope.

Section Opt.
Context {T : Type} `{Num T}.

(** ifopt::inf is 1.0e20 *)
(* source: ifopt/bounds.h (external), used in src/Optimization/ipopt_interface.cpp 12-15 *)
Definition ifopt_inf : T := npown (nofZ 10%Z) 20.

(** ** TimeSegmentLenghtsVar, ipopt_interface.cpp 6-16: values_ and bounds_.  [GetRows()] is the int given to VariableSet *)
Record tvar := mktvar { tv_values : vec T; tv_bounds : vec (T * T) }.
(* source: src/Optimization/ipopt_interface.cpp 6-16 *)
Definition tv_ctor (n : nat) (exec_time : T) : tvar :=
  mktvar (vscale (vconst n n1) (exec_time / nofnat n)) (vconst n (n0, ifopt_inf)).
(** SetVariables 18-20, GetValues 22, GetBounds 24-26 *)
(* source: src/Optimization/ipopt_interface.cpp 18-20, 22, 24-26 *)
Definition tv_set (tv : tvar) (x : vec T) : tvar := mktvar x (tv_bounds tv).

(** ** ExecTimeConstraint, constructor 28-33, GetBounds 42-44: bounds_ *)
(* source: src/Optimization/ipopt_interface.cpp 28-33, 42-44 *)
Definition ec_ctor (exec_time : T) : vec (T * T) := vconst 1 (exec_time, exec_time).
(** GetValues, 35-41; [sum] of an empty vector is 0 *)
(* source: src/Optimization/ipopt_interface.cpp 35-41 *)
Definition ec_values (tv : tvar) : outcome (vec T) :=
  s <- of_option (osum (vlen (tv_values tv)) (vget (tv_values tv))) ;;
  vwrite (vnew 1) 0 s.
(** FillJacobianBlock, 46-54, on a fresh block; [rows] is GetRows() of the variables; the name of the set is not looked at *)
(* source: src/Optimization/ipopt_interface.cpp 46-54 *)
Definition ec_jacobian (rows : nat) (block : smat T) : outcome (smat T) :=
  for_ 0 rows (fun i m => sset m 0 i n1) block.

(** ** the cost SobolevNorm, 56-67: the functional, buff_1_ (assigned before each use) is not state; buff_2_ *)
(* source: src/Optimization/ipopt_interface.cpp 56-67 *)
Record cost := mkcost { co_norm : sobnorm T; co_buff : vec T }.
(* source: src/Optimization/ipopt_interface.cpp 56-67 *)
Definition co_ctor (wp : mat T) (b : basis T) (bst : bstate T) (ws : list (nat * T)) : outcome cost :=
  sn <- sn_ctor wp b bst ws ;;
  n <- of_option (usub1 (mrows wp)) ;;
  Ok (mkcost sn (vnew n)).
(** GetCost, 69-73 *)
(* source: src/Optimization/ipopt_interface.cpp 69-73 *)
Definition co_value (lu : smat T -> option (vec T -> vec T)) (co : cost) (tv : tvar) : outcome (T * cost) :=
  '(v, sn) <- sn_value lu (co_norm co) (tv_values tv) ;;
  Ok (v, mkcost sn (co_buff co)).
(** FillJacobianBlock, 74-87 *)
(* source: src/Optimization/ipopt_interface.cpp 74-87 *)
Definition co_jacobian (lu : smat T -> option (vec T -> vec T)) (co : cost) (tv : tvar) (rows : nat) (block : smat T)
  : outcome (smat T * cost) :=
  '(buff, sn) <- sn_grad lu (co_norm co) (tv_values tv) (co_buff co) ;;
  block <- for_ 0 rows (fun i m => x <- vread buff i ;; sset m 0 i x) block ;;
  Ok (block, mkcost sn buff).

(** ** the assembled problem, ipopt_solver.cpp 120-134; [nl_rows] is GetRows() of the variables *)
Record nlp := mknlp { nl_rows : nat; nl_var : tvar; nl_con : vec (T * T); nl_cost : cost }.
(* source: src/Optimization/ipopt_solver.cpp 120-134 *)
Definition nlp_build (wp : mat T) (b : basis T) (bst : bstate T) (ws : list (nat * T)) (exec_time : T) : outcome nlp :=
  n <- of_option (usub1 (mrows wp)) ;;
  co <- co_ctor wp b bst ws ;;
  Ok (mknlp n (tv_ctor n exec_time) (ec_ctor exec_time) co).

(** what the solver can ask; the new variables are an array of as many numbers as there are variables *)
(* source: no code of its own: what ifopt can call *)
Inductive question :=
| AskStart | AskVarBounds | AskConBounds
| SetVars (x : nat -> T) | AskCost (x : nat -> T) | AskCostJac (x : nat -> T) | AskCon (x : nat -> T) | AskConJac (x : nat -> T).
(* source: no code of its own: the answers *)
Inductive answer := Done | Number (v : T) | Vector (v : vec T) | Bounds (v : vec (T * T)) | Jacobian (m : smat T) | Failed (e : exn).
(* source: no code of its own: the external optimiser, called at src/Optimization/ipopt_solver.cpp 137-150 *)
Inductive session := Return (status : Z) | Raise (e : exn) | Ask (q : question) (next : answer -> session).

(* source: no code of its own: SetVariables called by ifopt *)
Definition nl_set (p : nlp) (x : nat -> T) : nlp :=
  mknlp (nl_rows p) (tv_set (nl_var p) (mkvec (nl_rows p) (fun i => Some (x i)))) (nl_con p) (nl_cost p).
(* source: no code of its own: change of the cost object *)
Definition nl_with (p : nlp) (co : cost) : nlp := mknlp (nl_rows p) (nl_var p) (nl_con p) co.
(** an exception reaches the solver; undefined behaviour ends everything *)
(* source: no code of its own: exceptions seen by the optimiser *)
Definition reply {A} (r : outcome A) (p : nlp) (f : A -> answer * nlp) : outcome (answer * nlp) :=
  match r with Ok a => Ok (f a) | Throw e => Ok (Failed e, p) | UB => UB end.
(* source: no code of its own: one call by ifopt *)
Definition ask (lu : smat T -> option (vec T -> vec T)) (p : nlp) (q : question) : outcome (answer * nlp) :=
  match q with
  | AskStart => Ok (Vector (tv_values (nl_var p)), p)
  | AskVarBounds => Ok (Bounds (tv_bounds (nl_var p)), p)
  | AskConBounds => Ok (Bounds (nl_con p), p)
  | SetVars x => Ok (Done, nl_set p x)
  | AskCost x => let p := nl_set p x in
    reply (co_value lu (nl_cost p) (nl_var p)) p (fun r => (Number (fst r), nl_with p (snd r)))
  | AskCostJac x => let p := nl_set p x in
    reply (co_jacobian lu (nl_cost p) (nl_var p) (nl_rows p) (snew 1 (nl_rows p))) p (fun r => (Jacobian (fst r), nl_with p (snd r)))
  | AskCon x => let p := nl_set p x in
    reply (ec_values (nl_var p)) p (fun v => (Vector v, p))
  | AskConJac x => let p := nl_set p x in
    reply (ec_jacobian (nl_rows p) (snew 1 (nl_rows p))) p (fun m => (Jacobian m, p))
  end.
(** ipopt.Solve(nlp), ipopt_solver.cpp 144: the return status and the problem afterwards *)
Fixpoint solve (lu : smat T -> option (vec T -> vec T)) (s : session) (p : nlp) : outcome (Z * nlp) :=
  match s with
  | Return status => Ok (status, p)
  | Raise e => Throw e
  | Ask q next => '(a, p) <- ask lu p q ;; solve lu (next a) p
  end.

(** ** optimal_sobolev_norm, 104-154.  Solve_Succeeded is 0 (line 18).  Without waypoints rows() - 1 wraps to 2^64 - 1 in line 110; the model does not follow that and answers UB.  nlp.GetOptVariables()->GetValues() are the values of the only set *)
(* source: src/Optimization/ipopt_solver.cpp 104-154 *)
Definition optimal_sobolev_norm (lu : smat T -> option (vec T -> vec T)) (se : session) (wp : mat T) (b : basis T) (bst : bstate T)
  (ws : list (nat * T)) (exec_time : T) : outcome (option (gspline T)) :=
  n <- of_option (usub1 (mrows wp)) ;;
  ip <- ip_ctor (mcols wp) n b bst ;;
  if Nat.eqb n 1 then
    r <- ip_interpolate lu ip (vec_of_list [exec_time]) wp ;;
    Ok (Some (fst r))
  else
    p <- nlp_build wp b bst ws exec_time ;;
    '(status, p) <- solve lu se p ;;
    if negb (Z.eqb status 0) then Ok None
    else
      r <- ip_interpolate lu ip (tv_values (nl_var p)) wp ;;
      Ok (Some (fst r)).

(** the common end of the functions below *)
(* source: src/Optimization/ipopt_solver.cpp 161-164, 172-175 *)
Definition to_unit_time (r : option (gspline T)) : outcome (option (gspline T)) :=
  match r with Some g => g' <- gs_linear_scaling g n1 ;; Ok (Some g') | None => Ok None end.
(** [static_cast<double>(_waypoints.rows() - 1)]: rows() is signed *)
(* source: src/Optimization/ipopt_solver.cpp 160 *)
Definition rows_m1 (wp : mat T) : T := nofZ (Z.of_nat (mrows wp) - 1)%Z.
(* source: src/Optimization/ipopt_solver.cpp 156-209 *)
Definition legendre_path (lu : smat T -> option (vec T -> vec T)) (se : session) (dim order : nat) (wp : mat T) : outcome (option (gspline T)) :=
  gram <- leg_ctor_buffer dim ;;
  let b := BLegendre dim gram in
  r <- optimal_sobolev_norm lu se wp b (bs_init b) [(order, n1)] (rows_m1 wp) ;;
  to_unit_time r.
(** 156-165, 167-176, 178-187, 189-198, 200-209 *)
(* source: src/Optimization/ipopt_solver.cpp 156-165 *)
Definition broken_lines_path lu se := legendre_path lu se 2 1.
(* source: src/Optimization/ipopt_solver.cpp 167-176 *)
Definition minimum_acceleration_path lu se := legendre_path lu se 4 2.
(* source: src/Optimization/ipopt_solver.cpp 178-187 *)
Definition minimum_jerk_path lu se := legendre_path lu se 6 3.
(* source: src/Optimization/ipopt_solver.cpp 189-198 *)
Definition minimum_snap_path lu se := legendre_path lu se 8 4.
(* source: src/Optimization/ipopt_solver.cpp 200-209 *)
Definition minimum_crackle_path lu se := legendre_path lu se 10 5.
(** rojas_path, 211-227 *)
(* source: src/Optimization/ipopt_solver.cpp 211-227 *)
Definition rojas_alpha (ni k : T) : T :=
  let execution_time := nofZ 4%Z * ni / nsqrt c2 in
  let aux := nofZ 4%Z * ni * k / nsqrt c2 in
  n1 / (n1 + npown (execution_time / aux) 4).
(* source: src/Optimization/ipopt_solver.cpp 211-227 *)
Definition rojas_path (lu : smat T -> option (vec T -> vec T)) (se : session) (wp : mat T) (k : T) : outcome (option (gspline T)) :=
  let ni := rows_m1 wp in
  let execution_time := nofZ 4%Z * ni / nsqrt c2 in
  let alpha := rojas_alpha ni k in
  let b := B0101 alpha in
  r <- optimal_sobolev_norm lu se wp b (bs_init b) [(1%nat, alpha); (3%nat, n1 - alpha)] execution_time ;;
  to_unit_time r.
End Opt.
Arguments tvar : clear implicits.
Arguments cost : clear implicits.
Arguments nlp : clear implicits.
Arguments question : clear implicits.
Arguments answer : clear implicits.
Arguments session : clear implicits.
