(** Model of gsplines::basis::Basis0101, src/Basis/Basis0101.cpp.

    The object is its parameter alpha.  The six Gram blocks at the end are a
    mechanical transcription of the C++ expressions: [pow(x, n)] with an
    integer literal [n] is [npown x n], decimal literals are exact decimal
    fractions, precedence and association are those of the source. *)
From Coq Require Import List Arith Bool ZArith.
From Verif Require Import Num Outcome LinAlg LegendreModel.
Import ListNotations.
Local Open Scope num_scope.

Section B0101.
Context {T : Type} `{Num T}.

(* source: the literal 0.25, src/Basis/Basis0101.cpp 39-40, 56-57, 88-89, 164-165 *)
Definition nquarter : T := nofZ 25%Z / nofZ 100%Z.

(** the factor k of lines 39-40, 56-57, 88-89 and 164-165 *)
(* source: src/Basis/Basis0101.cpp 39-40, 56-57, 88-89, 164-165 *)
Definition b01_k (alpha : T) : T :=
  nsqrt (nofZ 2%Z) / nofZ 4%Z * npow alpha nquarter / npow (n1 - alpha) nquarter.

(** eval_on_window, 35-51 *)
(* source: src/Basis/Basis0101.cpp 35-51 *)
Definition b01_eval (alpha s tau : T) (buff : vec T) : outcome (vec T) :=
  let k := b01_k alpha in
  let p := tau * k * s in
  let expp := nexp p in
  let cosp := ncos p in
  let sinp := nsin p in
  buff <- vwrite buff 0 (expp * cosp) ;;
  buff <- vwrite buff 1 (expp * sinp) ;;
  buff <- vwrite buff 2 (cosp / expp) ;;
  buff <- vwrite buff 3 (sinp / expp) ;;
  buff <- vwrite buff 4 p ;;
  vwrite buff 5 n1.

(** lines 70-80 (with [f] = k * 2) and 92-102 (with [f] = s * k) *)
(* source: src/Basis/Basis0101.cpp 70-80, 92-102 *)
Definition b01_step (f : T) (buff : vec T) : outcome (vec T) :=
  v0 <- vread buff 0 ;;
  v1 <- vread buff 1 ;;
  buff <- vwrite buff 0 (v0 - v1) ;;
  buff <- vwrite buff 1 (v0 + v1) ;;
  v0 <- vread buff 2 ;;
  v1 <- vread buff 3 ;;
  buff <- vwrite buff 2 (- v0 - v1) ;;
  buff <- vwrite buff 3 (v0 - v1) ;;
  v5 <- vread buff 5 ;;
  buff <- vwrite buff 4 v5 ;;
  buff <- vwrite buff 5 n0 ;;
  Ok (vscale buff f).

(** eval_derivative_on_window, 52-82: lines 55-67 repeat eval_on_window *)
(* source: src/Basis/Basis0101.cpp 52-82, 55-67 *)
Definition b01_eval_deriv (alpha s tau : T) (deg : nat) (buff : vec T) : outcome (vec T) :=
  buff <- b01_eval alpha s tau buff ;;
  for_ 1 (S deg) (fun _ buff => b01_step (b01_k alpha * c2) buff) buff.

(** eval_derivative_wrt_tau_on_window, 84-103 *)
(* source: src/Basis/Basis0101.cpp 84-103 *)
Definition b01_eval_deriv_tau (alpha s tau : T) (deg : nat) (buff : vec T) : outcome (vec T) :=
  buff <- b01_eval_deriv alpha s tau deg buff ;;
  b01_step (s * b01_k alpha) buff.

(** d1matrix, 155-157 *)
(* source: src/Basis/Basis0101.cpp 155-157 *)
Definition b01_d1 : list Z :=
  [1; -1; 0; 0; 0; 0; 1; 1; 0; 0; 0; 0; 0; 0; -1; -1; 0; 0;
   0; 0; 1; -1; 0; 0; 0; 0; 0; 0; 0; 1; 0; 0; 0; 0; 0; 0]%Z.

(** derivative_matrix_impl, 154-177.  The Eigen::Map of line 168 is column
    major; [Q *= Q] (173) evaluates the product before assigning it. *)
(* source: src/Basis/Basis0101.cpp 154-177, 168, 173 *)
Definition b01_derivative_matrix_impl (alpha : T) (deg : nat) : outcome (mat T) :=
  match deg with
  | O => Ok (mident 6)
  | _ =>
    let tauk := b01_k alpha * c2 in
    let Q := mkmat 6 6 (fun i j => option_map (@nofZ T _) (nth_error b01_d1 (i + 6 * j))) in
    for_ 2 (S deg) (fun _ Q => mmul Q Q) (mscale Q tauk)
  end.

(** the factor k inside the six blocks: 183-184, 285-286, 387-388, 497-498, 639-640, 753-754 *)
(* source: src/Basis/Basis0101.cpp 183-184, 285-286, 387-388, 497-498, 639-640, 753-754 *)
Definition b01_kq (alpha : T) : T :=
  nofZ 35355339059327379%Z / nofZ 100000000000000000%Z * npow alpha nquarter
  * npow (n1 / (n1 - alpha)) nquarter.

(** compute_Qd3_block, 181-281: entry (i, j); every entry is assigned *)
(* source: src/Basis/Basis0101.cpp 181-281 *)
Definition b01_Qd3 (k tau : T) (i j : nat) : T :=
  match i, j with
    | 0, 0 => (nofZ 96%Z) * (npown k 5) * (nexp ((nofZ 2%Z) * tau * k)) * (npown ((nsin (tau * k)))
      2) + (nofZ 64%Z) * (npown k 5) * (nexp ((nofZ 2%Z) * tau * k)) * (nsin (tau * k)) * (ncos (tau
      * k)) + (nofZ 32%Z) * (npown k 5) * (nexp ((nofZ 2%Z) * tau * k)) * (npown ((ncos (tau * k)))
      2) - ((nofZ 96%Z) * (npown k 5) * (npown ((nsin (tau * k))) 2) - (nofZ 64%Z) * (npown k 5) *
      (nsin (tau * k)) * (ncos (tau * k)) + (nofZ 32%Z) * (npown k 5) * (npown ((ncos (tau * k)))
      2)) * (nexp (- (nofZ 2%Z) * tau * k))
    | 0, 1 => (nofZ 32%Z) * (npown k 5) * (nexp ((nofZ 2%Z) * tau * k)) * (npown ((nsin (tau * k)))
      2) - (nofZ 64%Z) * (npown k 5) * (nexp ((nofZ 2%Z) * tau * k)) * (nsin (tau * k)) * (ncos (tau
      * k)) - (nofZ 32%Z) * (npown k 5) * (nexp ((nofZ 2%Z) * tau * k)) * (npown ((ncos (tau * k)))
      2) + (- (nofZ 32%Z) * (npown k 5) * (npown ((nsin (tau * k))) 2) - (nofZ 64%Z) * (npown k 5) *
      (nsin (tau * k)) * (ncos (tau * k)) + (nofZ 32%Z) * (npown k 5) * (npown ((ncos (tau * k)))
      2)) * (nexp (- (nofZ 2%Z) * tau * k))
  | 0, 2 => - (nofZ 256%Z) * (npown k 5) * (nsin (tau * k)) * (ncos (tau * k))
    | 0, 3 => - (nofZ 256%Z) * tau * (npown k 6) * (npown ((nsin (tau * k))) 2) - (nofZ 256%Z) * tau
      * (npown k 6) * (npown ((ncos (tau * k))) 2)
    | 1, 0 => (nofZ 32%Z) * (npown k 5) * (nexp ((nofZ 2%Z) * tau * k)) * (npown ((nsin (tau * k)))
      2) - (nofZ 64%Z) * (npown k 5) * (nexp ((nofZ 2%Z) * tau * k)) * (nsin (tau * k)) * (ncos (tau
      * k)) - (nofZ 32%Z) * (npown k 5) * (nexp ((nofZ 2%Z) * tau * k)) * (npown ((ncos (tau * k)))
      2) + (- (nofZ 32%Z) * (npown k 5) * (npown ((nsin (tau * k))) 2) - (nofZ 64%Z) * (npown k 5) *
      (nsin (tau * k)) * (ncos (tau * k)) + (nofZ 32%Z) * (npown k 5) * (npown ((ncos (tau * k)))
      2)) * (nexp (- (nofZ 2%Z) * tau * k))
    | 1, 1 => (nofZ 32%Z) * (npown k 5) * (nexp ((nofZ 2%Z) * tau * k)) * (npown ((nsin (tau * k)))
      2) - (nofZ 64%Z) * (npown k 5) * (nexp ((nofZ 2%Z) * tau * k)) * (nsin (tau * k)) * (ncos (tau
      * k)) + (nofZ 96%Z) * (npown k 5) * (nexp ((nofZ 2%Z) * tau * k)) * (npown ((ncos (tau * k)))
      2) - ((nofZ 32%Z) * (npown k 5) * (npown ((nsin (tau * k))) 2) + (nofZ 64%Z) * (npown k 5) *
      (nsin (tau * k)) * (ncos (tau * k)) + (nofZ 96%Z) * (npown k 5) * (npown ((ncos (tau * k)))
      2)) * (nexp (- (nofZ 2%Z) * tau * k))
    | 1, 2 => (nofZ 256%Z) * tau * (npown k 6) * (npown ((nsin (tau * k))) 2) + (nofZ 256%Z) * tau *
      (npown k 6) * (npown ((ncos (tau * k))) 2)
  | 1, 3 => (nofZ 256%Z) * (npown k 5) * (nsin (tau * k)) * (ncos (tau * k))
  | 2, 0 => - (nofZ 256%Z) * (npown k 5) * (nsin (tau * k)) * (ncos (tau * k))
    | 2, 1 => (nofZ 256%Z) * tau * (npown k 6) * (npown ((nsin (tau * k))) 2) + (nofZ 256%Z) * tau *
      (npown k 6) * (npown ((ncos (tau * k))) 2)
    | 2, 2 => (nofZ 96%Z) * (npown k 5) * (nexp ((nofZ 2%Z) * tau * k)) * (npown ((nsin (tau * k)))
      2) + (nofZ 64%Z) * (npown k 5) * (nexp ((nofZ 2%Z) * tau * k)) * (nsin (tau * k)) * (ncos (tau
      * k)) + (nofZ 32%Z) * (npown k 5) * (nexp ((nofZ 2%Z) * tau * k)) * (npown ((ncos (tau * k)))
      2) - ((nofZ 96%Z) * (npown k 5) * (npown ((nsin (tau * k))) 2) - (nofZ 64%Z) * (npown k 5) *
      (nsin (tau * k)) * (ncos (tau * k)) + (nofZ 32%Z) * (npown k 5) * (npown ((ncos (tau * k)))
      2)) * (nexp (- (nofZ 2%Z) * tau * k))
    | 2, 3 => - (nofZ 32%Z) * (npown k 5) * (nexp ((nofZ 2%Z) * tau * k)) * (npown ((nsin (tau *
      k))) 2) + (nofZ 64%Z) * (npown k 5) * (nexp ((nofZ 2%Z) * tau * k)) * (nsin (tau * k)) * (ncos
      (tau * k)) + (nofZ 32%Z) * (npown k 5) * (nexp ((nofZ 2%Z) * tau * k)) * (npown ((ncos (tau *
      k))) 2) - (- (nofZ 32%Z) * (npown k 5) * (npown ((nsin (tau * k))) 2) - (nofZ 64%Z) * (npown k
      5) * (nsin (tau * k)) * (ncos (tau * k)) + (nofZ 32%Z) * (npown k 5) * (npown ((ncos (tau *
      k))) 2)) * (nexp (- (nofZ 2%Z) * tau * k))
    | 3, 0 => - (nofZ 256%Z) * tau * (npown k 6) * (npown ((nsin (tau * k))) 2) - (nofZ 256%Z) * tau
      * (npown k 6) * (npown ((ncos (tau * k))) 2)
  | 3, 1 => (nofZ 256%Z) * (npown k 5) * (nsin (tau * k)) * (ncos (tau * k))
    | 3, 2 => - (nofZ 32%Z) * (npown k 5) * (nexp ((nofZ 2%Z) * tau * k)) * (npown ((nsin (tau *
      k))) 2) + (nofZ 64%Z) * (npown k 5) * (nexp ((nofZ 2%Z) * tau * k)) * (nsin (tau * k)) * (ncos
      (tau * k)) + (nofZ 32%Z) * (npown k 5) * (nexp ((nofZ 2%Z) * tau * k)) * (npown ((ncos (tau *
      k))) 2) - (- (nofZ 32%Z) * (npown k 5) * (npown ((nsin (tau * k))) 2) - (nofZ 64%Z) * (npown k
      5) * (nsin (tau * k)) * (ncos (tau * k)) + (nofZ 32%Z) * (npown k 5) * (npown ((ncos (tau *
      k))) 2)) * (nexp (- (nofZ 2%Z) * tau * k))
    | 3, 3 => (nofZ 32%Z) * (npown k 5) * (nexp ((nofZ 2%Z) * tau * k)) * (npown ((nsin (tau * k)))
      2) - (nofZ 64%Z) * (npown k 5) * (nexp ((nofZ 2%Z) * tau * k)) * (nsin (tau * k)) * (ncos (tau
      * k)) + (nofZ 96%Z) * (npown k 5) * (nexp ((nofZ 2%Z) * tau * k)) * (npown ((ncos (tau * k)))
      2) - ((nofZ 32%Z) * (npown k 5) * (npown ((nsin (tau * k))) 2) + (nofZ 64%Z) * (npown k 5) *
      (nsin (tau * k)) * (ncos (tau * k)) + (nofZ 96%Z) * (npown k 5) * (npown ((ncos (tau * k)))
      2)) * (nexp (- (nofZ 2%Z) * tau * k))
  | _, _ => nofZ 0%Z
  end.

(** compute_Qd3_dtau_block, 283-383: entry (i, j); every entry is assigned *)
(* source: src/Basis/Basis0101.cpp 283-383 *)
Definition b01_Qd3_dtau (k tau : T) (i j : nat) : T :=
  match i, j with
    | 0, 0 => (nofZ 128%Z) * (npown k 6) * (nexp ((nofZ 2%Z) * tau * k)) * (npown ((nsin (tau * k)))
      2) + (nofZ 256%Z) * (npown k 6) * (nexp ((nofZ 2%Z) * tau * k)) * (nsin (tau * k)) * (ncos
      (tau * k)) + (nofZ 128%Z) * (npown k 6) * (nexp ((nofZ 2%Z) * tau * k)) * (npown ((ncos (tau *
      k))) 2) + (nofZ 1%Z) * ((nofZ 128%Z) * (npown k 6) * (npown ((nsin (tau * k))) 2) - (nofZ
      256%Z) * (npown k 6) * (nsin (tau * k)) * (ncos (tau * k)) + (nofZ 128%Z) * (npown k 6) *
      (npown ((ncos (tau * k))) 2)) * (nexp (- (nofZ 2%Z) * tau * k))
    | 0, 1 => (nofZ 128%Z) * (npown k 6) * (nexp ((nofZ 2%Z) * tau * k)) * (npown ((nsin (tau * k)))
      2) - (nofZ 128%Z) * (npown k 6) * (nexp ((nofZ 2%Z) * tau * k)) * (npown ((ncos (tau * k))) 2)
      - (nofZ 1%Z) * (- (nofZ 128%Z) * (npown k 6) * (npown ((nsin (tau * k))) 2) + (nofZ 128%Z) *
      (npown k 6) * (npown ((ncos (tau * k))) 2)) * (nexp (- (nofZ 2%Z) * tau * k))
    | 0, 2 => (nofZ 256%Z) * (npown k 6) * (npown ((nsin (tau * k))) 2) - (nofZ 256%Z) * (npown k 6)
      * (npown ((ncos (tau * k))) 2)
    | 0, 3 => - (nofZ 256%Z) * (npown k 6) * (npown ((nsin (tau * k))) 2) - (nofZ 256%Z) * (npown k
      6) * (npown ((ncos (tau * k))) 2)
    | 1, 0 => (nofZ 128%Z) * (npown k 6) * (nexp ((nofZ 2%Z) * tau * k)) * (npown ((nsin (tau * k)))
      2) - (nofZ 128%Z) * (npown k 6) * (nexp ((nofZ 2%Z) * tau * k)) * (npown ((ncos (tau * k))) 2)
      - (nofZ 1%Z) * (- (nofZ 128%Z) * (npown k 6) * (npown ((nsin (tau * k))) 2) + (nofZ 128%Z) *
      (npown k 6) * (npown ((ncos (tau * k))) 2)) * (nexp (- (nofZ 2%Z) * tau * k))
    | 1, 1 => (nofZ 128%Z) * (npown k 6) * (nexp ((nofZ 2%Z) * tau * k)) * (npown ((nsin (tau * k)))
      2) - (nofZ 256%Z) * (npown k 6) * (nexp ((nofZ 2%Z) * tau * k)) * (nsin (tau * k)) * (ncos
      (tau * k)) + (nofZ 128%Z) * (npown k 6) * (nexp ((nofZ 2%Z) * tau * k)) * (npown ((ncos (tau *
      k))) 2) + (nofZ 1%Z) * ((nofZ 128%Z) * (npown k 6) * (npown ((nsin (tau * k))) 2) + (nofZ
      256%Z) * (npown k 6) * (nsin (tau * k)) * (ncos (tau * k)) + (nofZ 128%Z) * (npown k 6) *
      (npown ((ncos (tau * k))) 2)) * (nexp (- (nofZ 2%Z) * tau * k))
    | 1, 2 => (nofZ 256%Z) * (npown k 6) * (npown ((nsin (tau * k))) 2) + (nofZ 256%Z) * (npown k 6)
      * (npown ((ncos (tau * k))) 2)
    | 1, 3 => - (nofZ 256%Z) * (npown k 6) * (npown ((nsin (tau * k))) 2) + (nofZ 256%Z) * (npown k
      6) * (npown ((ncos (tau * k))) 2)
    | 2, 0 => (nofZ 256%Z) * (npown k 6) * (npown ((nsin (tau * k))) 2) - (nofZ 256%Z) * (npown k 6)
      * (npown ((ncos (tau * k))) 2)
    | 2, 1 => (nofZ 256%Z) * (npown k 6) * (npown ((nsin (tau * k))) 2) + (nofZ 256%Z) * (npown k 6)
      * (npown ((ncos (tau * k))) 2)
    | 2, 2 => (nofZ 128%Z) * (npown k 6) * (nexp ((nofZ 2%Z) * tau * k)) * (npown ((nsin (tau * k)))
      2) + (nofZ 256%Z) * (npown k 6) * (nexp ((nofZ 2%Z) * tau * k)) * (nsin (tau * k)) * (ncos
      (tau * k)) + (nofZ 128%Z) * (npown k 6) * (nexp ((nofZ 2%Z) * tau * k)) * (npown ((ncos (tau *
      k))) 2) + (nofZ 1%Z) * ((nofZ 128%Z) * (npown k 6) * (npown ((nsin (tau * k))) 2) - (nofZ
      256%Z) * (npown k 6) * (nsin (tau * k)) * (ncos (tau * k)) + (nofZ 128%Z) * (npown k 6) *
      (npown ((ncos (tau * k))) 2)) * (nexp (- (nofZ 2%Z) * tau * k))
    | 2, 3 => - (nofZ 128%Z) * (npown k 6) * (nexp ((nofZ 2%Z) * tau * k)) * (npown ((nsin (tau *
      k))) 2) + (nofZ 128%Z) * (npown k 6) * (nexp ((nofZ 2%Z) * tau * k)) * (npown ((ncos (tau *
      k))) 2) + (nofZ 1%Z) * (- (nofZ 128%Z) * (npown k 6) * (npown ((nsin (tau * k))) 2) + (nofZ
      128%Z) * (npown k 6) * (npown ((ncos (tau * k))) 2)) * (nexp (- (nofZ 2%Z) * tau * k))
    | 3, 0 => - (nofZ 256%Z) * (npown k 6) * (npown ((nsin (tau * k))) 2) - (nofZ 256%Z) * (npown k
      6) * (npown ((ncos (tau * k))) 2)
    | 3, 1 => - (nofZ 256%Z) * (npown k 6) * (npown ((nsin (tau * k))) 2) + (nofZ 256%Z) * (npown k
      6) * (npown ((ncos (tau * k))) 2)
    | 3, 2 => - (nofZ 128%Z) * (npown k 6) * (nexp ((nofZ 2%Z) * tau * k)) * (npown ((nsin (tau *
      k))) 2) + (nofZ 128%Z) * (npown k 6) * (nexp ((nofZ 2%Z) * tau * k)) * (npown ((ncos (tau *
      k))) 2) + (nofZ 1%Z) * (- (nofZ 128%Z) * (npown k 6) * (npown ((nsin (tau * k))) 2) + (nofZ
      128%Z) * (npown k 6) * (npown ((ncos (tau * k))) 2)) * (nexp (- (nofZ 2%Z) * tau * k))
    | 3, 3 => (nofZ 128%Z) * (npown k 6) * (nexp ((nofZ 2%Z) * tau * k)) * (npown ((nsin (tau * k)))
      2) - (nofZ 256%Z) * (npown k 6) * (nexp ((nofZ 2%Z) * tau * k)) * (nsin (tau * k)) * (ncos
      (tau * k)) + (nofZ 128%Z) * (npown k 6) * (nexp ((nofZ 2%Z) * tau * k)) * (npown ((ncos (tau *
      k))) 2) + (nofZ 1%Z) * ((nofZ 128%Z) * (npown k 6) * (npown ((nsin (tau * k))) 2) + (nofZ
      256%Z) * (npown k 6) * (nsin (tau * k)) * (ncos (tau * k)) + (nofZ 128%Z) * (npown k 6) *
      (npown ((ncos (tau * k))) 2)) * (nexp (- (nofZ 2%Z) * tau * k))
  | _, _ => nofZ 0%Z
  end.

(** compute_Qd1_block, 385-493: entry (i, j); every entry is assigned *)
(* source: src/Basis/Basis0101.cpp 385-493 *)
Definition b01_Qd1 (k tau : T) (i j : nat) : T :=
  match i, j with
    | 0, 0 => (nofZ 5%Z / nofZ 10%Z) * k * (nexp ((nofZ 2%Z) * tau * k)) * (npown ((nsin (tau * k)))
      2) - k * (nexp ((nofZ 2%Z) * tau * k)) * (nsin (tau * k)) * (ncos (tau * k)) + (nofZ 15%Z /
      nofZ 10%Z) * k * (nexp ((nofZ 2%Z) * tau * k)) * (npown ((ncos (tau * k))) 2) - (nofZ 5%Z /
      nofZ 10%Z) * (k * (npown ((nsin (tau * k))) 2) + (nofZ 2%Z) * k * (nsin (tau * k)) * (ncos
      (tau * k)) + (nofZ 3%Z) * k * (npown ((ncos (tau * k))) 2)) * (nexp (- (nofZ 2%Z) * tau * k))
    | 0, 1 => - (nofZ 5%Z / nofZ 10%Z) * k * (nexp ((nofZ 2%Z) * tau * k)) * (npown ((nsin (tau *
      k))) 2) + k * (nexp ((nofZ 2%Z) * tau * k)) * (nsin (tau * k)) * (ncos (tau * k)) + (nofZ 5%Z
      / nofZ 10%Z) * k * (nexp ((nofZ 2%Z) * tau * k)) * (npown ((ncos (tau * k))) 2) - (nofZ 5%Z /
      nofZ 10%Z) * (- k * (npown ((nsin (tau * k))) 2) - (nofZ 2%Z) * k * (nsin (tau * k)) * (ncos
      (tau * k)) + k * (npown ((ncos (tau * k))) 2)) * (nexp (- (nofZ 2%Z) * tau * k))
  | 0, 2 => - (nofZ 4%Z) * k * (nsin (tau * k)) * (ncos (tau * k))
    | 0, 3 => (nofZ 4%Z) * tau * (npown k 2) * (npown ((nsin (tau * k))) 2) + (nofZ 4%Z) * tau *
      (npown k 2) * (npown ((ncos (tau * k))) 2)
    | 0, 4 => (nofZ 2%Z) * k * (nexp (tau * k)) * (ncos (tau * k)) - (nofZ 2%Z) * k * (nexp (- tau *
      k)) * (ncos (tau * k))
    | 1, 0 => - (nofZ 5%Z / nofZ 10%Z) * k * (nexp ((nofZ 2%Z) * tau * k)) * (npown ((nsin (tau *
      k))) 2) + k * (nexp ((nofZ 2%Z) * tau * k)) * (nsin (tau * k)) * (ncos (tau * k)) + (nofZ 5%Z
      / nofZ 10%Z) * k * (nexp ((nofZ 2%Z) * tau * k)) * (npown ((ncos (tau * k))) 2) - (nofZ 5%Z /
      nofZ 10%Z) * (- k * (npown ((nsin (tau * k))) 2) - (nofZ 2%Z) * k * (nsin (tau * k)) * (ncos
      (tau * k)) + k * (npown ((ncos (tau * k))) 2)) * (nexp (- (nofZ 2%Z) * tau * k))
    | 1, 1 => (nofZ 15%Z / nofZ 10%Z) * k * (nexp ((nofZ 2%Z) * tau * k)) * (npown ((nsin (tau *
      k))) 2) + k * (nexp ((nofZ 2%Z) * tau * k)) * (nsin (tau * k)) * (ncos (tau * k)) + (nofZ 5%Z
      / nofZ 10%Z) * k * (nexp ((nofZ 2%Z) * tau * k)) * (npown ((ncos (tau * k))) 2) - (nofZ 5%Z /
      nofZ 10%Z) * ((nofZ 3%Z) * k * (npown ((nsin (tau * k))) 2) - (nofZ 2%Z) * k * (nsin (tau *
      k)) * (ncos (tau * k)) + k * (npown ((ncos (tau * k))) 2)) * (nexp (- (nofZ 2%Z) * tau * k))
    | 1, 2 => - (nofZ 4%Z) * tau * (npown k 2) * (npown ((nsin (tau * k))) 2) - (nofZ 4%Z) * tau *
      (npown k 2) * (npown ((ncos (tau * k))) 2)
  | 1, 3 => (nofZ 4%Z) * k * (nsin (tau * k)) * (ncos (tau * k))
    | 1, 4 => (nofZ 2%Z) * k * (nexp (tau * k)) * (nsin (tau * k)) + (nofZ 2%Z) * k * (nexp (- tau *
      k)) * (nsin (tau * k))
  | 2, 0 => - (nofZ 4%Z) * k * (nsin (tau * k)) * (ncos (tau * k))
    | 2, 1 => - (nofZ 4%Z) * tau * (npown k 2) * (npown ((nsin (tau * k))) 2) - (nofZ 4%Z) * tau *
      (npown k 2) * (npown ((ncos (tau * k))) 2)
    | 2, 2 => (nofZ 5%Z / nofZ 10%Z) * k * (nexp ((nofZ 2%Z) * tau * k)) * (npown ((nsin (tau * k)))
      2) - k * (nexp ((nofZ 2%Z) * tau * k)) * (nsin (tau * k)) * (ncos (tau * k)) + (nofZ 15%Z /
      nofZ 10%Z) * k * (nexp ((nofZ 2%Z) * tau * k)) * (npown ((ncos (tau * k))) 2) - (nofZ 5%Z /
      nofZ 10%Z) * (k * (npown ((nsin (tau * k))) 2) + (nofZ 2%Z) * k * (nsin (tau * k)) * (ncos
      (tau * k)) + (nofZ 3%Z) * k * (npown ((ncos (tau * k))) 2)) * (nexp (- (nofZ 2%Z) * tau * k))
    | 2, 3 => (nofZ 5%Z / nofZ 10%Z) * k * (nexp ((nofZ 2%Z) * tau * k)) * (npown ((nsin (tau * k)))
      2) - k * (nexp ((nofZ 2%Z) * tau * k)) * (nsin (tau * k)) * (ncos (tau * k)) - (nofZ 5%Z /
      nofZ 10%Z) * k * (nexp ((nofZ 2%Z) * tau * k)) * (npown ((ncos (tau * k))) 2) + (nofZ 5%Z /
      nofZ 10%Z) * (- k * (npown ((nsin (tau * k))) 2) - (nofZ 2%Z) * k * (nsin (tau * k)) * (ncos
      (tau * k)) + k * (npown ((ncos (tau * k))) 2)) * (nexp (- (nofZ 2%Z) * tau * k))
    | 2, 4 => - (nofZ 2%Z) * k * (nexp (tau * k)) * (ncos (tau * k)) + (nofZ 2%Z) * k * (nexp (- tau
      * k)) * (ncos (tau * k))
    | 3, 0 => (nofZ 4%Z) * tau * (npown k 2) * (npown ((nsin (tau * k))) 2) + (nofZ 4%Z) * tau *
      (npown k 2) * (npown ((ncos (tau * k))) 2)
  | 3, 1 => (nofZ 4%Z) * k * (nsin (tau * k)) * (ncos (tau * k))
    | 3, 2 => (nofZ 5%Z / nofZ 10%Z) * k * (nexp ((nofZ 2%Z) * tau * k)) * (npown ((nsin (tau * k)))
      2) - k * (nexp ((nofZ 2%Z) * tau * k)) * (nsin (tau * k)) * (ncos (tau * k)) - (nofZ 5%Z /
      nofZ 10%Z) * k * (nexp ((nofZ 2%Z) * tau * k)) * (npown ((ncos (tau * k))) 2) + (nofZ 5%Z /
      nofZ 10%Z) * (- k * (npown ((nsin (tau * k))) 2) - (nofZ 2%Z) * k * (nsin (tau * k)) * (ncos
      (tau * k)) + k * (npown ((ncos (tau * k))) 2)) * (nexp (- (nofZ 2%Z) * tau * k))
    | 3, 3 => (nofZ 15%Z / nofZ 10%Z) * k * (nexp ((nofZ 2%Z) * tau * k)) * (npown ((nsin (tau *
      k))) 2) + k * (nexp ((nofZ 2%Z) * tau * k)) * (nsin (tau * k)) * (ncos (tau * k)) + (nofZ 5%Z
      / nofZ 10%Z) * k * (nexp ((nofZ 2%Z) * tau * k)) * (npown ((ncos (tau * k))) 2) - (nofZ 5%Z /
      nofZ 10%Z) * ((nofZ 3%Z) * k * (npown ((nsin (tau * k))) 2) - (nofZ 2%Z) * k * (nsin (tau *
      k)) * (ncos (tau * k)) + k * (npown ((ncos (tau * k))) 2)) * (nexp (- (nofZ 2%Z) * tau * k))
    | 3, 4 => (nofZ 2%Z) * k * (nexp (tau * k)) * (nsin (tau * k)) + (nofZ 2%Z) * k * (nexp (- tau *
      k)) * (nsin (tau * k))
    | 4, 0 => (nofZ 2%Z) * k * (nexp (tau * k)) * (ncos (tau * k)) - (nofZ 2%Z) * k * (nexp (- tau *
      k)) * (ncos (tau * k))
    | 4, 1 => (nofZ 2%Z) * k * (nexp (tau * k)) * (nsin (tau * k)) + (nofZ 2%Z) * k * (nexp (- tau *
      k)) * (nsin (tau * k))
    | 4, 2 => - (nofZ 2%Z) * k * (nexp (tau * k)) * (ncos (tau * k)) + (nofZ 2%Z) * k * (nexp (- tau
      * k)) * (ncos (tau * k))
    | 4, 3 => (nofZ 2%Z) * k * (nexp (tau * k)) * (nsin (tau * k)) + (nofZ 2%Z) * k * (nexp (- tau *
      k)) * (nsin (tau * k))
  | 4, 4 => (nofZ 4%Z) * tau * (npown k 2)
  | _, _ => nofZ 0%Z
  end.

(** compute_Qd1_dtau_block, 495-635: entry (i, j); every entry is assigned *)
(* source: src/Basis/Basis0101.cpp 495-635 *)
Definition b01_Qd1_dtau (k tau : T) (i j : nat) : T :=
  match i, j with
    | 0, 0 => (nofZ 2%Z) * (npown k 2) * (nexp ((nofZ 2%Z) * tau * k)) * (npown ((nsin (tau * k)))
      2) - (nofZ 4%Z) * (npown k 2) * (nexp ((nofZ 2%Z) * tau * k)) * (nsin (tau * k)) * (ncos (tau
      * k)) + (nofZ 2%Z) * (npown k 2) * (nexp ((nofZ 2%Z) * tau * k)) * (npown ((ncos (tau * k)))
      2) + (nofZ 1%Z) * ((nofZ 2%Z) * (npown k 2) * (npown ((nsin (tau * k))) 2) + (nofZ 4%Z) *
      (npown k 2) * (nsin (tau * k)) * (ncos (tau * k)) + (nofZ 2%Z) * (npown k 2) * (npown ((ncos
      (tau * k))) 2)) * (nexp (- (nofZ 2%Z) * tau * k))
    | 0, 1 => - (nofZ 2%Z) * (npown k 2) * (nexp ((nofZ 2%Z) * tau * k)) * (npown ((nsin (tau * k)))
      2) + (nofZ 2%Z) * (npown k 2) * (nexp ((nofZ 2%Z) * tau * k)) * (npown ((ncos (tau * k))) 2) +
      (nofZ 1%Z) * (- (nofZ 2%Z) * (npown k 2) * (npown ((nsin (tau * k))) 2) + (nofZ 2%Z) * (npown
      k 2) * (npown ((ncos (tau * k))) 2)) * (nexp (- (nofZ 2%Z) * tau * k))
    | 0, 2 => (nofZ 4%Z) * (npown k 2) * (npown ((nsin (tau * k))) 2) - (nofZ 4%Z) * (npown k 2) *
      (npown ((ncos (tau * k))) 2)
    | 0, 3 => (nofZ 4%Z) * (npown k 2) * (npown ((nsin (tau * k))) 2) + (nofZ 4%Z) * (npown k 2) *
      (npown ((ncos (tau * k))) 2)
    | 0, 4 => - (nofZ 2%Z) * (npown k 2) * (nexp (tau * k)) * (nsin (tau * k)) + (nofZ 2%Z) * (npown
      k 2) * (nexp (tau * k)) * (ncos (tau * k)) + (nofZ 1%Z) * ((nofZ 2%Z) * (npown k 2) * (nsin
      (tau * k)) + (nofZ 2%Z) * (npown k 2) * (ncos (tau * k))) * (nexp (- tau * k))
    | 1, 0 => - (nofZ 2%Z) * (npown k 2) * (nexp ((nofZ 2%Z) * tau * k)) * (npown ((nsin (tau * k)))
      2) + (nofZ 2%Z) * (npown k 2) * (nexp ((nofZ 2%Z) * tau * k)) * (npown ((ncos (tau * k))) 2) +
      (nofZ 1%Z) * (- (nofZ 2%Z) * (npown k 2) * (npown ((nsin (tau * k))) 2) + (nofZ 2%Z) * (npown
      k 2) * (npown ((ncos (tau * k))) 2)) * (nexp (- (nofZ 2%Z) * tau * k))
    | 1, 1 => (nofZ 2%Z) * (npown k 2) * (nexp ((nofZ 2%Z) * tau * k)) * (npown ((nsin (tau * k)))
      2) + (nofZ 4%Z) * (npown k 2) * (nexp ((nofZ 2%Z) * tau * k)) * (nsin (tau * k)) * (ncos (tau
      * k)) + (nofZ 2%Z) * (npown k 2) * (nexp ((nofZ 2%Z) * tau * k)) * (npown ((ncos (tau * k)))
      2) + (nofZ 1%Z) * ((nofZ 2%Z) * (npown k 2) * (npown ((nsin (tau * k))) 2) - (nofZ 4%Z) *
      (npown k 2) * (nsin (tau * k)) * (ncos (tau * k)) + (nofZ 2%Z) * (npown k 2) * (npown ((ncos
      (tau * k))) 2)) * (nexp (- (nofZ 2%Z) * tau * k))
    | 1, 2 => - (nofZ 4%Z) * (npown k 2) * (npown ((nsin (tau * k))) 2) - (nofZ 4%Z) * (npown k 2) *
      (npown ((ncos (tau * k))) 2)
    | 1, 3 => - (nofZ 4%Z) * (npown k 2) * (npown ((nsin (tau * k))) 2) + (nofZ 4%Z) * (npown k 2) *
      (npown ((ncos (tau * k))) 2)
    | 1, 4 => (nofZ 2%Z) * (npown k 2) * (nexp (tau * k)) * (nsin (tau * k)) + (nofZ 2%Z) * (npown k
      2) * (nexp (tau * k)) * (ncos (tau * k)) + (nofZ 1%Z) * (- (nofZ 2%Z) * (npown k 2) * (nsin
      (tau * k)) + (nofZ 2%Z) * (npown k 2) * (ncos (tau * k))) * (nexp (- tau * k))
    | 2, 0 => (nofZ 4%Z) * (npown k 2) * (npown ((nsin (tau * k))) 2) - (nofZ 4%Z) * (npown k 2) *
      (npown ((ncos (tau * k))) 2)
    | 2, 1 => - (nofZ 4%Z) * (npown k 2) * (npown ((nsin (tau * k))) 2) - (nofZ 4%Z) * (npown k 2) *
      (npown ((ncos (tau * k))) 2)
    | 2, 2 => (nofZ 2%Z) * (npown k 2) * (nexp ((nofZ 2%Z) * tau * k)) * (npown ((nsin (tau * k)))
      2) - (nofZ 4%Z) * (npown k 2) * (nexp ((nofZ 2%Z) * tau * k)) * (nsin (tau * k)) * (ncos (tau
      * k)) + (nofZ 2%Z) * (npown k 2) * (nexp ((nofZ 2%Z) * tau * k)) * (npown ((ncos (tau * k)))
      2) + (nofZ 1%Z) * ((nofZ 2%Z) * (npown k 2) * (npown ((nsin (tau * k))) 2) + (nofZ 4%Z) *
      (npown k 2) * (nsin (tau * k)) * (ncos (tau * k)) + (nofZ 2%Z) * (npown k 2) * (npown ((ncos
      (tau * k))) 2)) * (nexp (- (nofZ 2%Z) * tau * k))
    | 2, 3 => (nofZ 2%Z) * (npown k 2) * (nexp ((nofZ 2%Z) * tau * k)) * (npown ((nsin (tau * k)))
      2) - (nofZ 2%Z) * (npown k 2) * (nexp ((nofZ 2%Z) * tau * k)) * (npown ((ncos (tau * k))) 2) -
      (nofZ 1%Z) * (- (nofZ 2%Z) * (npown k 2) * (npown ((nsin (tau * k))) 2) + (nofZ 2%Z) * (npown
      k 2) * (npown ((ncos (tau * k))) 2)) * (nexp (- (nofZ 2%Z) * tau * k))
    | 2, 4 => (nofZ 2%Z) * (npown k 2) * (nexp (tau * k)) * (nsin (tau * k)) - (nofZ 2%Z) * (npown k
      2) * (nexp (tau * k)) * (ncos (tau * k)) - (nofZ 1%Z) * ((nofZ 2%Z) * (npown k 2) * (nsin (tau
      * k)) + (nofZ 2%Z) * (npown k 2) * (ncos (tau * k))) * (nexp (- tau * k))
    | 3, 0 => (nofZ 4%Z) * (npown k 2) * (npown ((nsin (tau * k))) 2) + (nofZ 4%Z) * (npown k 2) *
      (npown ((ncos (tau * k))) 2)
    | 3, 1 => - (nofZ 4%Z) * (npown k 2) * (npown ((nsin (tau * k))) 2) + (nofZ 4%Z) * (npown k 2) *
      (npown ((ncos (tau * k))) 2)
    | 3, 2 => (nofZ 2%Z) * (npown k 2) * (nexp ((nofZ 2%Z) * tau * k)) * (npown ((nsin (tau * k)))
      2) - (nofZ 2%Z) * (npown k 2) * (nexp ((nofZ 2%Z) * tau * k)) * (npown ((ncos (tau * k))) 2) -
      (nofZ 1%Z) * (- (nofZ 2%Z) * (npown k 2) * (npown ((nsin (tau * k))) 2) + (nofZ 2%Z) * (npown
      k 2) * (npown ((ncos (tau * k))) 2)) * (nexp (- (nofZ 2%Z) * tau * k))
    | 3, 3 => (nofZ 2%Z) * (npown k 2) * (nexp ((nofZ 2%Z) * tau * k)) * (npown ((nsin (tau * k)))
      2) + (nofZ 4%Z) * (npown k 2) * (nexp ((nofZ 2%Z) * tau * k)) * (nsin (tau * k)) * (ncos (tau
      * k)) + (nofZ 2%Z) * (npown k 2) * (nexp ((nofZ 2%Z) * tau * k)) * (npown ((ncos (tau * k)))
      2) + (nofZ 1%Z) * ((nofZ 2%Z) * (npown k 2) * (npown ((nsin (tau * k))) 2) - (nofZ 4%Z) *
      (npown k 2) * (nsin (tau * k)) * (ncos (tau * k)) + (nofZ 2%Z) * (npown k 2) * (npown ((ncos
      (tau * k))) 2)) * (nexp (- (nofZ 2%Z) * tau * k))
    | 3, 4 => (nofZ 2%Z) * (npown k 2) * (nexp (tau * k)) * (nsin (tau * k)) + (nofZ 2%Z) * (npown k
      2) * (nexp (tau * k)) * (ncos (tau * k)) + (nofZ 1%Z) * (- (nofZ 2%Z) * (npown k 2) * (nsin
      (tau * k)) + (nofZ 2%Z) * (npown k 2) * (ncos (tau * k))) * (nexp (- tau * k))
    | 4, 0 => - (nofZ 2%Z) * (npown k 2) * (nexp (tau * k)) * (nsin (tau * k)) + (nofZ 2%Z) * (npown
      k 2) * (nexp (tau * k)) * (ncos (tau * k)) + (nofZ 1%Z) * ((nofZ 2%Z) * (npown k 2) * (nsin
      (tau * k)) + (nofZ 2%Z) * (npown k 2) * (ncos (tau * k))) * (nexp (- tau * k))
    | 4, 1 => (nofZ 2%Z) * (npown k 2) * (nexp (tau * k)) * (nsin (tau * k)) + (nofZ 2%Z) * (npown k
      2) * (nexp (tau * k)) * (ncos (tau * k)) + (nofZ 1%Z) * (- (nofZ 2%Z) * (npown k 2) * (nsin
      (tau * k)) + (nofZ 2%Z) * (npown k 2) * (ncos (tau * k))) * (nexp (- tau * k))
    | 4, 2 => (nofZ 2%Z) * (npown k 2) * (nexp (tau * k)) * (nsin (tau * k)) - (nofZ 2%Z) * (npown k
      2) * (nexp (tau * k)) * (ncos (tau * k)) - (nofZ 1%Z) * ((nofZ 2%Z) * (npown k 2) * (nsin (tau
      * k)) + (nofZ 2%Z) * (npown k 2) * (ncos (tau * k))) * (nexp (- tau * k))
    | 4, 3 => (nofZ 2%Z) * (npown k 2) * (nexp (tau * k)) * (nsin (tau * k)) + (nofZ 2%Z) * (npown k
      2) * (nexp (tau * k)) * (ncos (tau * k)) + (nofZ 1%Z) * (- (nofZ 2%Z) * (npown k 2) * (nsin
      (tau * k)) + (nofZ 2%Z) * (npown k 2) * (ncos (tau * k))) * (nexp (- tau * k))
  | 4, 4 => (nofZ 4%Z) * (npown k 2)
  | _, _ => nofZ 0%Z
  end.

(** compute_Qd2_block, 637-749: entry (i, j); every entry is assigned *)
(* source: src/Basis/Basis0101.cpp 637-749 *)
Definition b01_Qd2 (k tau : T) (i j : nat) : T :=
  match i, j with
    | 0, 0 => (nofZ 3%Z) * (npown tau 2) * (npown k 3) * (nexp ((nofZ 2%Z) * tau * k)) * (npown
      ((nsin (tau * k))) 2) - (nofZ 2%Z) * (npown tau 2) * (npown k 3) * (nexp ((nofZ 2%Z) * tau *
      k)) * (nsin (tau * k)) * (ncos (tau * k)) + (npown tau 2) * (npown k 3) * (nexp ((nofZ 2%Z) *
      tau * k)) * (npown ((ncos (tau * k))) 2) - ((nofZ 3%Z) * (npown tau 2) * (npown k 3) * (npown
      ((nsin (tau * k))) 2) + (nofZ 2%Z) * (npown tau 2) * (npown k 3) * (nsin (tau * k)) * (ncos
      (tau * k)) + (npown tau 2) * (npown k 3) * (npown ((ncos (tau * k))) 2)) * (nexp (- (nofZ 2%Z)
      * tau * k))
    | 0, 1 => - (npown tau 2) * (npown k 3) * (nexp ((nofZ 2%Z) * tau * k)) * (npown ((nsin (tau *
      k))) 2) - (nofZ 2%Z) * (npown tau 2) * (npown k 3) * (nexp ((nofZ 2%Z) * tau * k)) * (nsin
      (tau * k)) * (ncos (tau * k)) + (npown tau 2) * (npown k 3) * (nexp ((nofZ 2%Z) * tau * k)) *
      (npown ((ncos (tau * k))) 2) - (- (npown tau 2) * (npown k 3) * (npown ((nsin (tau * k))) 2) +
      (nofZ 2%Z) * (npown tau 2) * (npown k 3) * (nsin (tau * k)) * (ncos (tau * k)) + (npown tau 2)
      * (npown k 3) * (npown ((ncos (tau * k))) 2)) * (nexp (- (nofZ 2%Z) * tau * k))
    | 0, 2 => - (nofZ 8%Z) * (npown tau 3) * (npown k 4) + (nofZ 8%Z) * (npown tau 2) * (npown k 3)
      * (nsin (tau * k)) * (ncos (tau * k))
    | 1, 0 => - (npown tau 2) * (npown k 3) * (nexp ((nofZ 2%Z) * tau * k)) * (npown ((nsin (tau *
      k))) 2) - (nofZ 2%Z) * (npown tau 2) * (npown k 3) * (nexp ((nofZ 2%Z) * tau * k)) * (nsin
      (tau * k)) * (ncos (tau * k)) + (npown tau 2) * (npown k 3) * (nexp ((nofZ 2%Z) * tau * k)) *
      (npown ((ncos (tau * k))) 2) - (- (npown tau 2) * (npown k 3) * (npown ((nsin (tau * k))) 2) +
      (nofZ 2%Z) * (npown tau 2) * (npown k 3) * (nsin (tau * k)) * (ncos (tau * k)) + (npown tau 2)
      * (npown k 3) * (npown ((ncos (tau * k))) 2)) * (nexp (- (nofZ 2%Z) * tau * k))
    | 1, 1 => (npown tau 2) * (npown k 3) * (nexp ((nofZ 2%Z) * tau * k)) * (npown ((nsin (tau *
      k))) 2) + (nofZ 2%Z) * (npown tau 2) * (npown k 3) * (nexp ((nofZ 2%Z) * tau * k)) * (nsin
      (tau * k)) * (ncos (tau * k)) + (nofZ 3%Z) * (npown tau 2) * (npown k 3) * (nexp ((nofZ 2%Z) *
      tau * k)) * (npown ((ncos (tau * k))) 2) - ((npown tau 2) * (npown k 3) * (npown ((nsin (tau *
      k))) 2) - (nofZ 2%Z) * (npown tau 2) * (npown k 3) * (nsin (tau * k)) * (ncos (tau * k)) +
      (nofZ 3%Z) * (npown tau 2) * (npown k 3) * (npown ((ncos (tau * k))) 2)) * (nexp (- (nofZ 2%Z)
      * tau * k))
    | 1, 3 => - (nofZ 8%Z) * (npown tau 3) * (npown k 4) - (nofZ 8%Z) * (npown tau 2) * (npown k 3)
      * (nsin (tau * k)) * (ncos (tau * k))
    | 2, 0 => - (nofZ 8%Z) * (npown tau 3) * (npown k 4) + (nofZ 8%Z) * (npown tau 2) * (npown k 3)
      * (nsin (tau * k)) * (ncos (tau * k))
    | 2, 2 => (nofZ 3%Z) * (npown tau 2) * (npown k 3) * (nexp ((nofZ 2%Z) * tau * k)) * (npown
      ((nsin (tau * k))) 2) - (nofZ 2%Z) * (npown tau 2) * (npown k 3) * (nexp ((nofZ 2%Z) * tau *
      k)) * (nsin (tau * k)) * (ncos (tau * k)) + (npown tau 2) * (npown k 3) * (nexp ((nofZ 2%Z) *
      tau * k)) * (npown ((ncos (tau * k))) 2) - ((nofZ 3%Z) * (npown tau 2) * (npown k 3) * (npown
      ((nsin (tau * k))) 2) + (nofZ 2%Z) * (npown tau 2) * (npown k 3) * (nsin (tau * k)) * (ncos
      (tau * k)) + (npown tau 2) * (npown k 3) * (npown ((ncos (tau * k))) 2)) * (nexp (- (nofZ 2%Z)
      * tau * k))
    | 2, 3 => (npown tau 2) * (npown k 3) * (nexp ((nofZ 2%Z) * tau * k)) * (npown ((nsin (tau *
      k))) 2) + (nofZ 2%Z) * (npown tau 2) * (npown k 3) * (nexp ((nofZ 2%Z) * tau * k)) * (nsin
      (tau * k)) * (ncos (tau * k)) - (npown tau 2) * (npown k 3) * (nexp ((nofZ 2%Z) * tau * k)) *
      (npown ((ncos (tau * k))) 2) + (- (npown tau 2) * (npown k 3) * (npown ((nsin (tau * k))) 2) +
      (nofZ 2%Z) * (npown tau 2) * (npown k 3) * (nsin (tau * k)) * (ncos (tau * k)) + (npown tau 2)
      * (npown k 3) * (npown ((ncos (tau * k))) 2)) * (nexp (- (nofZ 2%Z) * tau * k))
    | 3, 1 => - (nofZ 8%Z) * (npown tau 3) * (npown k 4) - (nofZ 8%Z) * (npown tau 2) * (npown k 3)
      * (nsin (tau * k)) * (ncos (tau * k))
    | 3, 2 => (npown tau 2) * (npown k 3) * (nexp ((nofZ 2%Z) * tau * k)) * (npown ((nsin (tau *
      k))) 2) + (nofZ 2%Z) * (npown tau 2) * (npown k 3) * (nexp ((nofZ 2%Z) * tau * k)) * (nsin
      (tau * k)) * (ncos (tau * k)) - (npown tau 2) * (npown k 3) * (nexp ((nofZ 2%Z) * tau * k)) *
      (npown ((ncos (tau * k))) 2) + (- (npown tau 2) * (npown k 3) * (npown ((nsin (tau * k))) 2) +
      (nofZ 2%Z) * (npown tau 2) * (npown k 3) * (nsin (tau * k)) * (ncos (tau * k)) + (npown tau 2)
      * (npown k 3) * (npown ((ncos (tau * k))) 2)) * (nexp (- (nofZ 2%Z) * tau * k))
    | 3, 3 => (npown tau 2) * (npown k 3) * (nexp ((nofZ 2%Z) * tau * k)) * (npown ((nsin (tau *
      k))) 2) + (nofZ 2%Z) * (npown tau 2) * (npown k 3) * (nexp ((nofZ 2%Z) * tau * k)) * (nsin
      (tau * k)) * (ncos (tau * k)) + (nofZ 3%Z) * (npown tau 2) * (npown k 3) * (nexp ((nofZ 2%Z) *
      tau * k)) * (npown ((ncos (tau * k))) 2) - ((npown tau 2) * (npown k 3) * (npown ((nsin (tau *
      k))) 2) - (nofZ 2%Z) * (npown tau 2) * (npown k 3) * (nsin (tau * k)) * (ncos (tau * k)) +
      (nofZ 3%Z) * (npown tau 2) * (npown k 3) * (npown ((ncos (tau * k))) 2)) * (nexp (- (nofZ 2%Z)
      * tau * k))
  | _, _ => nofZ 0%Z
  end.

(** compute_Q_block, 751-911: entry (i, j); every entry is assigned *)
(* source: src/Basis/Basis0101.cpp 751-911 *)
Definition b01_Q (k tau : T) (i j : nat) : T :=
  match i, j with
    | 0, 0 => (nofZ 625%Z / nofZ 10000%Z) * ((nexp ((nofZ 4%Z) * tau * k)) * (npown ((nsin (tau *
      k))) 2) + (nofZ 2%Z) * (nexp ((nofZ 4%Z) * tau * k)) * (nsin (tau * k)) * (ncos (tau * k)) +
      (nofZ 3%Z) * (nexp ((nofZ 4%Z) * tau * k)) * (npown ((ncos (tau * k))) 2) - (npown ((nsin (tau
      * k))) 2) + (nofZ 2%Z) * (nsin (tau * k)) * (ncos (tau * k)) - (nofZ 3%Z) * (npown ((ncos (tau
      * k))) 2)) * (nexp (- (nofZ 2%Z) * tau * k)) / k
    | 0, 1 => - (nofZ 625%Z / nofZ 10000%Z) * (- (nexp ((nofZ 4%Z) * tau * k)) * (npown ((nsin (tau
      * k))) 2) - (nofZ 2%Z) * (nexp ((nofZ 4%Z) * tau * k)) * (nsin (tau * k)) * (ncos (tau * k)) +
      (nexp ((nofZ 4%Z) * tau * k)) * (npown ((ncos (tau * k))) 2) + (npown ((nsin (tau * k))) 2) -
      (nofZ 2%Z) * (nsin (tau * k)) * (ncos (tau * k)) - (npown ((ncos (tau * k))) 2)) * (nexp (-
      (nofZ 2%Z) * tau * k)) / k
    | 0, 2 => (nofZ 5%Z / nofZ 10%Z) * tau + (nofZ 5%Z / nofZ 10%Z) * (nsin (tau * k)) * (ncos (tau
      * k)) / k
    | 0, 4 => (nofZ 25%Z / nofZ 100%Z) * tau * (nexp (tau * k)) * (nsin (tau * k)) + (nofZ 25%Z /
      nofZ 100%Z) * tau * (nexp (tau * k)) * (ncos (tau * k)) + (nofZ 25%Z / nofZ 100%Z) * (- tau *
      k * (nsin (tau * k)) + tau * k * (ncos (tau * k)) - (nexp ((nofZ 2%Z) * tau * k)) * (nsin (tau
      * k)) - (nsin (tau * k))) * (nexp (- tau * k)) / k
    | 0, 5 => (nofZ 25%Z / nofZ 100%Z) * ((nexp ((nofZ 2%Z) * tau * k)) * (nsin (tau * k)) + (nexp
      ((nofZ 2%Z) * tau * k)) * (ncos (tau * k)) + (nsin (tau * k)) - (ncos (tau * k))) * (nexp (-
      tau * k)) / k
    | 1, 0 => - (nofZ 625%Z / nofZ 10000%Z) * (- (nexp ((nofZ 4%Z) * tau * k)) * (npown ((nsin (tau
      * k))) 2) - (nofZ 2%Z) * (nexp ((nofZ 4%Z) * tau * k)) * (nsin (tau * k)) * (ncos (tau * k)) +
      (nexp ((nofZ 4%Z) * tau * k)) * (npown ((ncos (tau * k))) 2) + (npown ((nsin (tau * k))) 2) -
      (nofZ 2%Z) * (nsin (tau * k)) * (ncos (tau * k)) - (npown ((ncos (tau * k))) 2)) * (nexp (-
      (nofZ 2%Z) * tau * k)) / k
    | 1, 1 => (nofZ 625%Z / nofZ 10000%Z) * ((nofZ 3%Z) * (nexp ((nofZ 4%Z) * tau * k)) * (npown
      ((nsin (tau * k))) 2) - (nofZ 2%Z) * (nexp ((nofZ 4%Z) * tau * k)) * (nsin (tau * k)) * (ncos
      (tau * k)) + (nexp ((nofZ 4%Z) * tau * k)) * (npown ((ncos (tau * k))) 2) - (nofZ 3%Z) *
      (npown ((nsin (tau * k))) 2) - (nofZ 2%Z) * (nsin (tau * k)) * (ncos (tau * k)) - (npown
      ((ncos (tau * k))) 2)) * (nexp (- (nofZ 2%Z) * tau * k)) / k
    | 1, 3 => (nofZ 5%Z / nofZ 10%Z) * tau - (nofZ 5%Z / nofZ 10%Z) * (nsin (tau * k)) * (ncos (tau
      * k)) / k
    | 1, 4 => (nofZ 25%Z / nofZ 100%Z) * tau * (nexp (tau * k)) * (nsin (tau * k)) - (nofZ 25%Z /
      nofZ 100%Z) * tau * (nexp (tau * k)) * (ncos (tau * k)) - (nofZ 25%Z / nofZ 100%Z) * (tau * k
      * (nsin (tau * k)) + tau * k * (ncos (tau * k)) - (nexp ((nofZ 2%Z) * tau * k)) * (ncos (tau *
      k)) + (ncos (tau * k))) * (nexp (- tau * k)) / k
    | 1, 5 => - (nofZ 25%Z / nofZ 100%Z) * (- (nexp ((nofZ 2%Z) * tau * k)) * (nsin (tau * k)) +
      (nexp ((nofZ 2%Z) * tau * k)) * (ncos (tau * k)) - (nsin (tau * k)) - (ncos (tau * k))) *
      (nexp (- tau * k)) / k
    | 2, 0 => (nofZ 5%Z / nofZ 10%Z) * tau + (nofZ 5%Z / nofZ 10%Z) * (nsin (tau * k)) * (ncos (tau
      * k)) / k
    | 2, 2 => (nofZ 625%Z / nofZ 10000%Z) * ((nexp ((nofZ 4%Z) * tau * k)) * (npown ((nsin (tau *
      k))) 2) + (nofZ 2%Z) * (nexp ((nofZ 4%Z) * tau * k)) * (nsin (tau * k)) * (ncos (tau * k)) +
      (nofZ 3%Z) * (nexp ((nofZ 4%Z) * tau * k)) * (npown ((ncos (tau * k))) 2) - (npown ((nsin (tau
      * k))) 2) + (nofZ 2%Z) * (nsin (tau * k)) * (ncos (tau * k)) - (nofZ 3%Z) * (npown ((ncos (tau
      * k))) 2)) * (nexp (- (nofZ 2%Z) * tau * k)) / k
    | 2, 3 => (nofZ 625%Z / nofZ 10000%Z) * (- (nexp ((nofZ 4%Z) * tau * k)) * (npown ((nsin (tau *
      k))) 2) - (nofZ 2%Z) * (nexp ((nofZ 4%Z) * tau * k)) * (nsin (tau * k)) * (ncos (tau * k)) +
      (nexp ((nofZ 4%Z) * tau * k)) * (npown ((ncos (tau * k))) 2) + (npown ((nsin (tau * k))) 2) -
      (nofZ 2%Z) * (nsin (tau * k)) * (ncos (tau * k)) - (npown ((ncos (tau * k))) 2)) * (nexp (-
      (nofZ 2%Z) * tau * k)) / k
    | 2, 4 => - (nofZ 25%Z / nofZ 100%Z) * tau * (nexp (tau * k)) * (nsin (tau * k)) - (nofZ 25%Z /
      nofZ 100%Z) * tau * (nexp (tau * k)) * (ncos (tau * k)) - (nofZ 25%Z / nofZ 100%Z) * (- tau *
      k * (nsin (tau * k)) + tau * k * (ncos (tau * k)) - (nexp ((nofZ 2%Z) * tau * k)) * (nsin (tau
      * k)) - (nsin (tau * k))) * (nexp (- tau * k)) / k
    | 2, 5 => (nofZ 25%Z / nofZ 100%Z) * ((nexp ((nofZ 2%Z) * tau * k)) * (nsin (tau * k)) + (nexp
      ((nofZ 2%Z) * tau * k)) * (ncos (tau * k)) + (nsin (tau * k)) - (ncos (tau * k))) * (nexp (-
      tau * k)) / k
    | 3, 1 => (nofZ 5%Z / nofZ 10%Z) * tau - (nofZ 5%Z / nofZ 10%Z) * (nsin (tau * k)) * (ncos (tau
      * k)) / k
    | 3, 2 => (nofZ 625%Z / nofZ 10000%Z) * (- (nexp ((nofZ 4%Z) * tau * k)) * (npown ((nsin (tau *
      k))) 2) - (nofZ 2%Z) * (nexp ((nofZ 4%Z) * tau * k)) * (nsin (tau * k)) * (ncos (tau * k)) +
      (nexp ((nofZ 4%Z) * tau * k)) * (npown ((ncos (tau * k))) 2) + (npown ((nsin (tau * k))) 2) -
      (nofZ 2%Z) * (nsin (tau * k)) * (ncos (tau * k)) - (npown ((ncos (tau * k))) 2)) * (nexp (-
      (nofZ 2%Z) * tau * k)) / k
    | 3, 3 => (nofZ 625%Z / nofZ 10000%Z) * ((nofZ 3%Z) * (nexp ((nofZ 4%Z) * tau * k)) * (npown
      ((nsin (tau * k))) 2) - (nofZ 2%Z) * (nexp ((nofZ 4%Z) * tau * k)) * (nsin (tau * k)) * (ncos
      (tau * k)) + (nexp ((nofZ 4%Z) * tau * k)) * (npown ((ncos (tau * k))) 2) - (nofZ 3%Z) *
      (npown ((nsin (tau * k))) 2) - (nofZ 2%Z) * (nsin (tau * k)) * (ncos (tau * k)) - (npown
      ((ncos (tau * k))) 2)) * (nexp (- (nofZ 2%Z) * tau * k)) / k
    | 3, 4 => (nofZ 25%Z / nofZ 100%Z) * tau * (nexp (tau * k)) * (nsin (tau * k)) - (nofZ 25%Z /
      nofZ 100%Z) * tau * (nexp (tau * k)) * (ncos (tau * k)) - (nofZ 25%Z / nofZ 100%Z) * (tau * k
      * (nsin (tau * k)) + tau * k * (ncos (tau * k)) - (nexp ((nofZ 2%Z) * tau * k)) * (ncos (tau *
      k)) + (ncos (tau * k))) * (nexp (- tau * k)) / k
    | 3, 5 => (nofZ 25%Z / nofZ 100%Z) * (- (nexp ((nofZ 2%Z) * tau * k)) * (nsin (tau * k)) + (nexp
      ((nofZ 2%Z) * tau * k)) * (ncos (tau * k)) - (nsin (tau * k)) - (ncos (tau * k))) * (nexp (-
      tau * k)) / k
    | 4, 0 => (nofZ 25%Z / nofZ 100%Z) * tau * (nexp (tau * k)) * (nsin (tau * k)) + (nofZ 25%Z /
      nofZ 100%Z) * tau * (nexp (tau * k)) * (ncos (tau * k)) + (nofZ 25%Z / nofZ 100%Z) * (- tau *
      k * (nsin (tau * k)) + tau * k * (ncos (tau * k)) - (nexp ((nofZ 2%Z) * tau * k)) * (nsin (tau
      * k)) - (nsin (tau * k))) * (nexp (- tau * k)) / k
    | 4, 1 => (nofZ 25%Z / nofZ 100%Z) * tau * (nexp (tau * k)) * (nsin (tau * k)) - (nofZ 25%Z /
      nofZ 100%Z) * tau * (nexp (tau * k)) * (ncos (tau * k)) - (nofZ 25%Z / nofZ 100%Z) * (tau * k
      * (nsin (tau * k)) + tau * k * (ncos (tau * k)) - (nexp ((nofZ 2%Z) * tau * k)) * (ncos (tau *
      k)) + (ncos (tau * k))) * (nexp (- tau * k)) / k
    | 4, 2 => - (nofZ 25%Z / nofZ 100%Z) * tau * (nexp (tau * k)) * (nsin (tau * k)) - (nofZ 25%Z /
      nofZ 100%Z) * tau * (nexp (tau * k)) * (ncos (tau * k)) - (nofZ 25%Z / nofZ 100%Z) * (- tau *
      k * (nsin (tau * k)) + tau * k * (ncos (tau * k)) - (nexp ((nofZ 2%Z) * tau * k)) * (nsin (tau
      * k)) - (nsin (tau * k))) * (nexp (- tau * k)) / k
    | 4, 3 => (nofZ 25%Z / nofZ 100%Z) * tau * (nexp (tau * k)) * (nsin (tau * k)) - (nofZ 25%Z /
      nofZ 100%Z) * tau * (nexp (tau * k)) * (ncos (tau * k)) - (nofZ 25%Z / nofZ 100%Z) * (tau * k
      * (nsin (tau * k)) + tau * k * (ncos (tau * k)) - (nexp ((nofZ 2%Z) * tau * k)) * (ncos (tau *
      k)) + (ncos (tau * k))) * (nexp (- tau * k)) / k
  | 4, 4 => (nofZ 33333333333333331%Z / nofZ 100000000000000000%Z) * (npown tau 3) * (npown k 2)
    | 5, 0 => (nofZ 25%Z / nofZ 100%Z) * ((nexp ((nofZ 2%Z) * tau * k)) * (nsin (tau * k)) + (nexp
      ((nofZ 2%Z) * tau * k)) * (ncos (tau * k)) + (nsin (tau * k)) - (ncos (tau * k))) * (nexp (-
      tau * k)) / k
    | 5, 1 => - (nofZ 25%Z / nofZ 100%Z) * (- (nexp ((nofZ 2%Z) * tau * k)) * (nsin (tau * k)) +
      (nexp ((nofZ 2%Z) * tau * k)) * (ncos (tau * k)) - (nsin (tau * k)) - (ncos (tau * k))) *
      (nexp (- tau * k)) / k
    | 5, 2 => (nofZ 25%Z / nofZ 100%Z) * ((nexp ((nofZ 2%Z) * tau * k)) * (nsin (tau * k)) + (nexp
      ((nofZ 2%Z) * tau * k)) * (ncos (tau * k)) + (nsin (tau * k)) - (ncos (tau * k))) * (nexp (-
      tau * k)) / k
    | 5, 3 => (nofZ 25%Z / nofZ 100%Z) * (- (nexp ((nofZ 2%Z) * tau * k)) * (nsin (tau * k)) + (nexp
      ((nofZ 2%Z) * tau * k)) * (ncos (tau * k)) - (nsin (tau * k)) - (ncos (tau * k))) * (nexp (-
      tau * k)) / k
  | 5, 5 => tau
  | _, _ => nofZ 0%Z
  end.
(** [_mat.noalias() += qBuffer_] with the 6x6 qBuffer_ just filled (every cell is assigned) *)
(* source: src/Basis/Basis0101.cpp 105-145 *)
Definition b01_add (m : mat T) (blk : nat -> nat -> T) : outcome (mat T) :=
  if Nat.eqb (mrows m) 6 && Nat.eqb (mcols m) 6
  then Ok (mkmat 6 6 (fun i j => option_map (fun x => x + blk i j) (mget m i j)))
  else UB.

(** add_derivative_matrix, 123-145 *)
(* source: src/Basis/Basis0101.cpp 123-145 *)
Definition b01_add_gram (alpha tau : T) (deg : nat) (m : mat T) : outcome (mat T) :=
  match deg with
  | 0 => b01_add m (b01_Q (b01_kq alpha) tau)
  | 1 => b01_add m (b01_Qd1 (b01_kq alpha) tau)
  | 2 => b01_add m (b01_Qd2 (b01_kq alpha) tau)
  | 3 => b01_add m (b01_Qd3 (b01_kq alpha) tau)
  | _ => Throw InvalidArgument
  end.

(** add_derivative_matrix_deriv_wrt_tau, 105-121 *)
(* source: src/Basis/Basis0101.cpp 105-121 *)
Definition b01_add_gram_tau (alpha tau : T) (deg : nat) (m : mat T) : outcome (mat T) :=
  match deg with
  | 1 => b01_add m (b01_Qd1_dtau (b01_kq alpha) tau)
  | 3 => b01_add m (b01_Qd3_dtau (b01_kq alpha) tau)
  | _ => Throw InvalidArgument
  end.

End B0101.
