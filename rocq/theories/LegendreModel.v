(** Model of gsplines::basis::BasisLegendre, src/Basis/BasisLegendre.cpp.

    Buffers are Eigen::Ref views of the caller's memory: [buff] carries their
    length.  [buff_next] (a mutable member of length dim) is local here: every
    use starts with setZero(). *)
From Coq Require Import List Arith Bool ZArith.
From Verif Require Import Num Outcome LinAlg.
Import ListNotations.
Local Open Scope num_scope.

Section Legendre.
Context {T : Type} `{Num T}.

(* source: the literal 2.0 *)
Definition c2 : T := nofZ 2%Z.
(* source: the literal 0.5 *)
Definition nhalf : T := n1 / nofZ 2%Z.

(** body of the loops 58-62 and 95-99 *)
(* source: src/Basis/BasisLegendre.cpp 58-62, 95-99 *)
Definition leg_step (s : T) (i : nat) (buff : vec T) : outcome (vec T) :=
  bi <- vread buff i ;;
  bm <- vread buff (i - 1) ;;
  vwrite buff (i + 1)
    (n1 / (nofnat i + n1) * ((c2 * nofnat i + n1) * s * bi - nofnat i * bm)).

(** eval_on_window, 89-100.  [get_dim() - 1] wraps for dim = 0. *)
(* source: src/Basis/BasisLegendre.cpp 89-100 *)
Definition leg_eval (dim : nat) (s : T) (buff : vec T) : outcome (vec T) :=
  let buff := vsetzero buff in
  buff <- vwrite buff 0 n1 ;;
  buff <- vwrite buff 1 s ;;
  match usub1 dim with
  | None => UB
  | Some dm1 => for_ 1 dm1 (leg_step s) buff
  end.

(** inner loop body, 68-73 *)
(* source: src/Basis/BasisLegendre.cpp 68-73 *)
Definition legd_step (s : T) (d : nat) (buff : vec T) (i : nat) (next : vec T) : outcome (vec T) :=
  bi <- vread buff i ;;
  ni <- vread next i ;;
  let term := (c2 * nofnat i + n1) * (nofnat d * bi + s * ni) in
  nm <- vread next (i - 1) ;;
  vwrite next (i + 1) (n1 / (nofnat i + n1) * (term - nofnat i * nm)).

(** state of the outer loop 64-78: (aux, mutiplier, _buff, buff_next) *)
(* source: src/Basis/BasisLegendre.cpp 64-78 *)
Definition legd_outer (dm1 : nat) (s tau : T) (d : nat) (st : T * T * vec T * vec T)
  : outcome (T * T * vec T * vec T) :=
  let '(aux, mult, buff, next) := st in
  next <- vwrite next (d - 1) n0 ;;
  next <- vwrite next d aux ;;
  next <- for_ d dm1 (legd_step s d buff) next ;;
  let aux := (c2 * nofnat d + n1) / (nofnat d + n1) * (nofnat d + n1) * aux in
  buff <- vassign buff next ;;
  Ok (aux, mult * (c2 / tau), buff, next).

(** eval_derivative_on_window, 49-80 *)
(* source: src/Basis/BasisLegendre.cpp 49-80 *)
Definition leg_eval_deriv (dim : nat) (s tau : T) (deg : nat) (buff : vec T) : outcome (vec T) :=
  let buff := vsetzero buff in
  let next := vconst dim n0 in
  buff <- vwrite buff 0 n1 ;;
  buff <- vwrite buff 1 s ;;
  match usub1 dim with
  | None => UB
  | Some dm1 =>
      buff <- for_ 1 dm1 (leg_step s) buff ;;
      st <- for_ 1 (S deg) (legd_outer dm1 s tau) (n1, n1, buff, next) ;;
      let '(_, mult, buff, _) := st in
      Ok (vscale buff mult)
  end.

(** eval_derivative_wrt_tau_on_window, 82-87 *)
(* source: src/Basis/BasisLegendre.cpp 82-87 *)
Definition leg_eval_deriv_tau (dim : nat) (s tau : T) (deg : nat) (buff : vec T) : outcome (vec T) :=
  buff <- leg_eval_deriv dim s tau deg buff ;;
  Ok (vscale buff (- nhalf * nofnat deg * (c2 / tau))).

(** alpha, gamma, 101-103 *)
(* source: src/Basis/BasisLegendre.cpp 101-103 *)
Definition leg_alpha (i : nat) : T := (nofnat i + n1) / (c2 * nofnat i + n1).
(* source: src/Basis/BasisLegendre.cpp 101-103 *)
Definition leg_gamma (i : nat) : T := nofnat i / (c2 * nofnat i + n1).

(** inner loop body of derivative_matrix (153-177) and of
    gsplines_legendre_dmat (105-126): the two functions have the same body *)
(* source: src/Basis/BasisLegendre.cpp 153-177, 105-126 *)
Definition leg_dmat_cell (i j : nat) (m : mat T) : outcome (mat T) :=
  if Nat.eqb i (j + 1) then mwrite m i j (nofnat i / leg_alpha (i - 1))
  else if Nat.ltb (j + 1) i then
    second <- (if Nat.leb 1 j then x <- mread m (i - 1) (j - 1) ;; Ok (leg_alpha (j - 1) * x)
               else Ok n0) ;;
    third <- (if Nat.leb 1 i then x <- mread m (i - 1) (j + 1) ;; Ok (leg_gamma (j + 1) * x)
              else Ok n0) ;;
    fourth <- (if Nat.leb 2 i then x <- mread m (i - 2) j ;; Ok (leg_gamma (i - 1) * x)
               else Ok n0) ;;
    mwrite m i j (n1 / leg_alpha (i - 1) * (n0 + second + third - fourth))
  else mwrite m i j n0.

(* source: src/Basis/BasisLegendre.cpp 105-126, 153-177 *)
Definition leg_dmat (dim : nat) : outcome (mat T) :=
  for_ 1 dim (fun i m => for_ 0 (dim - 1) (fun j m => leg_dmat_cell i j m) m) (mzero dim dim).

(** derivative_matrix_impl, 179-191 *)
(* source: src/Basis/BasisLegendre.cpp 179-191 *)
Definition leg_derivative_matrix_impl (dim deg : nat) : outcome (mat T) :=
  match deg with
  | O => Ok (mident dim)
  | _ =>
    d <- leg_dmat dim ;;
    let dm := mtrans d in
    for_ 2 (S deg) (fun _ r => mmul r dm) dm
  end.

(** diagonal matrix 22-26 *)
(* source: src/Basis/BasisLegendre.cpp 22-26 *)
Definition leg_l2 (dim : nat) : outcome (mat T) :=
  for_ 0 dim (fun i m => mwrite m i i (c2 / (c2 * nofnat i + n1))) (mzero dim dim).

(** constructor, 15-36: derivative_matrices_buffer_ *)
(* source: src/Basis/BasisLegendre.cpp 15-36 *)
Definition leg_ctor_buffer (dim : nat) : outcome (list (mat T)) :=
  d <- leg_dmat dim ;;
  let dmt := mtrans d in
  l2 <- leg_l2 dim ;;
  r <- for_ 1 (dim + 1) (fun _ (st : mat T * list (mat T)) =>
         let '(dmat, buf) := st in
         a <- mmul dmat l2 ;;
         b <- mmul a (mtrans dmat) ;;
         dmat <- mmul dmat dmt ;;
         Ok (dmat, buf ++ [b])) (dmt, [l2]) ;;
  Ok (snd r).

(** add_derivative_matrix, 128-138.  [pow(x, 2*_deg-1)] has an integer exponent. *)
(* source: src/Basis/BasisLegendre.cpp 128-138 *)
Definition leg_add_gram (dim : nat) (buffer : list (mat T)) (tau : T) (deg : nat) (m : mat T)
  : outcome (mat T) :=
  let scale := if Nat.ltb 0 deg then npown (c2 / tau) (2 * deg - 1) else tau / c2 in
  if Nat.ltb deg (dim + 1)
  then match nth_error buffer deg with
       | None => UB
       | Some b => madd_scaled m b scale
       end
  else Ok m.

(** add_derivative_matrix_deriv_wrt_tau, 140-151 *)
(* source: src/Basis/BasisLegendre.cpp 140-151 *)
Definition leg_add_gram_tau (dim : nat) (buffer : list (mat T)) (tau : T) (deg : nat) (m : mat T)
  : outcome (mat T) :=
  let scale := if Nat.ltb 0 deg
               then - nhalf * (c2 * nofnat deg - n1) * npown (c2 / tau) (2 * deg)
               else n1 / c2 in
  if Nat.ltb deg (dim + 1)
  then match nth_error buffer deg with
       | None => UB
       | Some b => madd_scaled m b scale
       end
  else Ok m.

End Legendre.
