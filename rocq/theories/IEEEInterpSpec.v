(** The interpolation system in binary64: how far an assembled system is from the interpolation conditions. *)
From Coquelicot Require Import Coquelicot.
From Coq Require Import Reals Arith.
From Verif Require Import Num Outcome LinAlg RSum BasisModel SplineSpec InterpSpec IEEEModel IEEESpec IEEEDerivSpec.
Local Open Scope R_scope.

(** coefficient (i, j) as a real number; what is not stored is zero *)
Definition entry_val (A : smat b64) (i j : nat) : R := match sget A i j with Some x => val x | None => 0 end.
(** everything that is stored is a finite number *)
Definition finite_matrix (A : smat b64) : Prop :=
  forall i j x, (i < srows A)%nat -> (j < scols A)%nat -> sget A i j = Some x -> fin x.

(** the orders up to k for the dimension dim and the length tau are evaluated without overflow and with errors below the size of the derivatives *)
Definition deriv_range (dim k : nat) (tau : R) : Prop :=
  deriv_error (dim - 1) k <= INR (dim - 1) ^ (2 * k) / 16 /\ (2 * spread tau * INR (dim - 1) ^ 2) ^ k <= 2 ^ 900.
(** sum of the absolute coefficients of component cc on piece iv *)
Definition piece_size (dim codom : nat) (c : nat -> R) (iv cc : nat) : R :=
  Rsum dim (fun bb => Rabs (c ((iv * codom + cc) * dim + bb)%nat)).
(** error of a k-th derivative of the basis at an end of an interval of length tau *)
Definition end_error (dim : nat) (tau : R) (k : nat) : R := 2 * deriv_error (dim - 1) k * (2 / tau) ^ k.
(** by how much the coefficients c may miss condition q because of the rounding errors of the matrix *)
Definition cond_error (dim codom n : nat) (tau : nat -> R) (c : nat -> R) (q : cond) : R :=
  match q with
  | CStart iv cc | CEnd iv cc => end_error dim (tau iv) 0 * piece_size dim codom c iv cc
  | CCont iv cc d => end_error dim (tau iv) (S d) * piece_size dim codom c iv cc +
                     end_error dim (tau (S iv)) (S d) * piece_size dim codom c (S iv) cc
  | CFirst cc d => end_error dim (tau 0%nat) (S d) * piece_size dim codom c 0 cc
  | CLast cc d => end_error dim (tau (n - 1)%nat) (S d) * piece_size dim codom c (n - 1) cc
  end.

(** one row per condition, in some order: row [i] of A c - b is, up to rounding errors of the matrix, by how much c misses condition
    number i *)
Definition near_system (dim codom n : nat) (t0 : R) (tau : nat -> R) (W : nat -> nat -> R) (A : smat b64) (b : nat -> R) : Prop :=
  let N := (dim * codom * n)%nat in
  srows A = N /\ scols A = N /\
  exists row : cond -> nat,
    (forall q, cond_ok dim codom n q -> (row q < N)%nat) /\
    (forall q q', cond_ok dim codom n q -> cond_ok dim codom n q' -> row q = row q' -> q = q') /\
    (forall i, (i < N)%nat -> exists q, cond_ok dim codom n q /\ row q = i) /\
    forall q c, cond_ok dim codom n q ->
      Rabs (Rsum N (fun j => entry_val A (row q) j * c j) - b (row q) - residual (DLeg dim) codom n t0 tau W c q) <= cond_error dim codom n tau c q.

(** error of a value computed eta from a breakpoint, on a piece of length tau whose coefficients add up to C, breakpoints known up to dl *)
Definition waypoint_error (dim : nat) (dl eta tau C : R) : R :=
  (value_error dim (window_error dl tau) + (dl + eta) * (2 / tau) * INR (dim - 1) ^ 2) * C + INR dim * / 2 ^ 1074.
