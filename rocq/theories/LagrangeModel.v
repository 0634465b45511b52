(** Model of gsplines::basis::BasisLagrange, src/Basis/BasisLagrange.cpp.

    The object is its interpolation points and the weights computed from them
    ([domain_points_], [barycentric_weights_]); dim is the number of points.
    [deriv_buff_1_], [deriv_buff_2_] are only used by commented-out code and
    are left out. *)
From Coq Require Import List Arith Bool ZArith.
From Verif Require Import Num Outcome LinAlg LegendreModel.
Import ListNotations.
Local Open Scope num_scope.

Section Lagrange.
Context {T : Type} `{Num T}.

(* source: the tolerance 1.0e-9, src/Basis/BasisLagrange.cpp 131 *)
Definition tol9 : T := n1 / nofZ 1000000000%Z.

(** almost_equal, 20-29 *)
(* source: src/Basis/BasisLagrange.cpp 20-29 *)
Definition almost_equal (a b eps : T) : bool :=
  if (nabs a <? eps) || (nabs b <? eps) then nabs (a - b) <? eps
  else (nabs (a - b) <? eps * nabs a) && (nabs (a - b) <? eps * nabs b).

(** [v /= x] *)
(* source: [v /= x], src/Basis/BasisLagrange.cpp 143 *)
Definition vdivs (v : vec T) (x : T) : vec T :=
  mkvec (vlen v) (fun i => option_map (fun y => y / x) (vget v i)).

(** body of the inner loop of barycentric_weights, 181-182 *)
(* source: src/Basis/BasisLagrange.cpp 181-182 *)
Definition bary_step (pts : vec T) (j k : nat) (r : vec T) : outcome (vec T) :=
  rk <- vread r k ;;
  xk <- vread pts k ;;
  xj <- vread pts j ;;
  r <- vwrite r k (rk * (xk - xj)) ;;
  rj <- vread r j ;;
  vwrite r j (rj * (xj - xk)).

(** barycentric_weights, 170-189; the last statement inverts every entry *)
(* source: src/Basis/BasisLagrange.cpp 170-189 *)
Definition bary_weights (pts : vec T) : outcome (vec T) :=
  r <- for_ 1 (vlen pts) (fun j r => for_ 0 j (fun k r => bary_step pts j k r) r)
         (vconst (vlen pts) n1) ;;
  Ok (mkvec (vlen r) (fun i => option_map (fun x => n1 / x) (vget r i))).

(** search of the first matching node, 130-135: starts at node [j], [n] nodes left *)
(* source: src/Basis/BasisLagrange.cpp 130-135 *)
Fixpoint lag_match (pts : vec T) (s : T) (j n : nat) : outcome (option nat) :=
  match n with
  | O => Ok None
  | S n' =>
    x <- vread pts j ;;
    if almost_equal s x tol9 then Ok (Some j) else lag_match pts s (S j) n'
  end.

(** eval_on_window, 121-144 *)
(* source: src/Basis/BasisLagrange.cpp 121-144 *)
Definition lag_eval (pts bw : vec T) (s : T) (buff : vec T) : outcome (vec T) :=
  let buff := vconst (vlen buff) n0 in
  m <- lag_match pts s 0 (vlen pts) ;;
  match m with
  | Some j => vwrite buff j n1
  | None =>
    st <- for_ 0 (vlen pts) (fun j (st : vec T * T) =>
            let '(buff, sum) := st in
            w <- vread bw j ;;
            x <- vread pts j ;;
            let t := w / (s - x) in
            buff <- vwrite buff j t ;;
            Ok (buff, sum + t)) (buff, n0) ;;
    let '(buff, sum) := st in
    Ok (vdivs buff sum)
  end.

(** the double loop shared by lines 203-211 and 234-244: [compute i j] is the
    off-diagonal entry, the diagonal collects minus the row *)
(* source: src/Basis/BasisLagrange.cpp 203-211, 234-244 *)
Definition lag_fill (n : nat) (compute : nat -> nat -> outcome T) (m : mat T) : outcome (mat T) :=
  for_ 0 n (fun i m =>
    m <- mwrite m i i n0 ;;
    for_ 0 n (fun j m =>
      if Nat.eqb i j then Ok m
      else
        v <- compute i j ;;
        m <- mwrite m i j v ;;
        d <- mread m i i ;;
        r <- mread m i j ;;
        mwrite m i i (d + - r)) m) m.

(** derivative_matrix(_points), 191-214 *)
(* source: src/Basis/BasisLagrange.cpp 191-214 *)
Definition lag_dmat (pts : vec T) : outcome (mat T) :=
  bw <- bary_weights pts ;;
  lag_fill (vlen pts) (fun i j =>
    wj <- vread bw j ;; wi <- vread bw i ;; xi <- vread pts i ;; xj <- vread pts j ;;
    Ok (wj / wi * n1 / (xi - xj))) (mzero (vlen pts) (vlen pts)).

(** derivative_matrix(_points, _deg), 216-249 *)
(* source: src/Basis/BasisLagrange.cpp 216-249 *)
Definition lag_dmat_deg (pts : vec T) (deg : nat) : outcome (mat T) :=
  match deg with
  | O => Ok (mident (vlen pts))
  | S O => lag_dmat pts
  | _ =>
    result <- lag_dmat pts ;;
    buff <- lag_dmat pts ;;
    bw <- bary_weights pts ;;
    st <- for_ 2 (S deg) (fun k (st : mat T * mat T) =>
            let '(result, buff) := st in
            result <- lag_fill (vlen pts) (fun i j =>
              xi <- vread pts i ;; xj <- vread pts j ;;
              wj <- vread bw j ;; wi <- vread bw i ;;
              bii <- mread buff i i ;; bij <- mread buff i j ;;
              Ok (nofnat k / (xi - xj) * (wj / wi * bii - bij))) result ;;
            Ok (result, result)) (result, buff) ;;
    Ok (fst st)
  end.

(** derivative_matrix_impl, 290-295 *)
(* source: src/Basis/BasisLagrange.cpp 290-295 *)
Definition lag_derivative_matrix_impl (pts : vec T) (deg : nat) : outcome (mat T) :=
  match deg with
  | O => Ok (mident (vlen pts))
  | _ => lag_dmat_deg pts deg
  end.

(** eval_derivative_on_window, 81-112.  [get_derivative_matrix_block(_deg)] is
    the cached derivative_matrix_impl(_deg) (Basis.hpp 140-152, property C22).
    Eigen evaluates the product into a temporary before the assignment. *)
Definition lag_eval_deriv (pts bw : vec T) (s tau : T) (deg : nat) (buff : vec T) : outcome (vec T) :=
  buff <- lag_eval pts bw s buff ;;
  match deg with
  | O => Ok buff
  | _ =>
    let term := npown (c2 / tau) deg in
    d <- lag_derivative_matrix_impl pts deg ;;
    p <- mvmul (mtrans d) buff ;;
    vassign buff (vscale p term)
  end.

(** eval_derivative_wrt_tau_on_window, 114-119 *)
(* source: src/Basis/BasisLagrange.cpp 114-119 *)
Definition lag_eval_deriv_tau (pts bw : vec T) (s tau : T) (deg : nat) (buff : vec T) : outcome (vec T) :=
  buff <- lag_eval_deriv pts bw s tau deg buff ;;
  Ok (vscale buff (- nhalf * nofnat deg * (c2 / tau))).

(** change_interpolation_points, 251-288.  State: (book_row_has_match, result);
    the flag is set before the loop over [k] and never cleared. *)
(* source: src/Basis/BasisLagrange.cpp 251-288 *)
Definition lag_change (old new : vec T) : outcome (mat T) :=
  let n := vlen old in
  bw <- bary_weights old ;;
  st <- for_ 0 (vlen new) (fun k (st : bool * mat T) =>
    let '(flag, m) := st in
    st <- for_ 0 n (fun j (st : bool * mat T) =>
            let '(flag, m) := st in
            m <- mwrite m k j n0 ;;
            xn <- vread new k ;;
            xo <- vread old j ;;
            if almost_equal xn xo tol9
            then m <- mwrite m k j n1 ;; Ok (true, m)
            else Ok (flag, m)) (flag, m) ;;
    let '(flag, m) := st in
    if flag then Ok (flag, m)
    else
      st <- for_ 0 n (fun j (st : T * mat T) =>
              let '(sum, m) := st in
              w <- vread bw j ;;
              xn <- vread new k ;;
              xo <- vread old j ;;
              let t := w / (xn - xo) in
              m <- mwrite m k j t ;;
              Ok (sum + t, m)) (n0, m) ;;
      let '(sum, m) := st in
      Ok (flag, mkmat (mrows m) (mcols m)
            (fun a b => if Nat.eqb a k then option_map (fun y => y / sum) (mget m a b) else mget m a b)))
    (false, mnew (vlen new) n) ;;
  Ok (snd st).

(** [l2normbase_matrix], 46-49: allocated without initialisation, only its
    diagonal is assigned.  [fresh] is what the allocation returns:
    [fun _ _ => None] (reading it is undefined), or the values that happen to
    be there. *)
(* source: src/Basis/BasisLagrange.cpp 46-49 *)
Definition lag_l2 (n : nat) (fresh : nat -> nat -> option T) (glw : vec T) : outcome (mat T) :=
  if Nat.eqb (vlen glw) n
  then Ok (mkmat n n (fun i j => if Nat.eqb i j then vget glw i else fresh i j))
  else UB.

(** constructor, 33-59: derivative_matrices_buffer_.  [glp], [glw] are the
    results of legendre_gauss_lobatto_points / _weights(get_dim()). *)
(* source: src/Basis/BasisLagrange.cpp 33-59 *)
Definition lag_ctor_buffer (pts glp glw : vec T) (fresh : nat -> nat -> option T)
  : outcome (list (mat T)) :=
  d <- lag_dmat pts ;;
  _ <- lag_change pts glp ;;
  l2 <- lag_l2 (vlen pts) fresh glw ;;
  r <- for_ 1 (vlen pts + 1) (fun i (st : mat T * list (mat T)) =>
         let '(dmat, buf) := st in
         a <- mmul dmat l2 ;;
         b <- mmul a (mtrans dmat) ;;
         dmat <- lag_dmat_deg pts (i + 1) ;;
         Ok (dmat, buf ++ [b])) (d, [l2]) ;;
  Ok (snd r).

(** add_derivative_matrix, 146-156 *)
(* source: src/Basis/BasisLagrange.cpp 146-156 *)
Definition lag_add_gram (dim : nat) (buffer : list (mat T)) (tau : T) (deg : nat) (m : mat T)
  : outcome (mat T) :=
  let scale := if Nat.ltb 0 deg then npown (c2 / tau) (2 * deg - 1) else tau / c2 in
  if Nat.ltb deg (dim + 1)
  then match nth_error buffer deg with
       | None => UB
       | Some b => madd_scaled m b scale
       end
  else Ok m.

(** add_derivative_matrix_deriv_wrt_tau, 158-168 *)
(* source: src/Basis/BasisLagrange.cpp 158-168 *)
Definition lag_add_gram_tau (dim : nat) (buffer : list (mat T)) (tau : T) (deg : nat) (m : mat T)
  : outcome (mat T) :=
  let scale := if Nat.ltb 0 deg
               then - nhalf * (c2 * nofnat deg - n1) * npown (c2 / tau) (2 * deg)
               else n1 / c2 in
  if Nat.ltb deg (dim + 1)
  then match nth_error buffer deg with
       | None => UB
       | Some b => madd_scaled m b scale
       end
  else Ok m.

End Lagrange.
