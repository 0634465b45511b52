(** Error bounds of C73: derivatives of Legendre splines in binary64. *)
From Coquelicot Require Import Coquelicot.
From Coq Require Import Reals.
From Verif Require Import RSum LegendreSpec IEEESpec IEEEDerivSpec.
Local Open Scope R_scope.

(** relative error of row i of the derivative matrix *)
Fixpoint dmat_error (i : nat) : R :=
  match i with
  | O => 0
  | S k => match k with O => 3 * uu | S j => 2 * dmat_error k + dmat_error j + 26 * uu end
  end.
(** relative error of the coefficients of the k-th derivative *)
Definition coef_error (dim k : nat) : R := (1 + dmat_error (dim - 1)) ^ k * (/ (1 - uu)) ^ (k * (dim + 2) + 1) - 1.
(** size of the k-th derivative of a piece with coefficients c on an interval of length tau: its derivative is at most this everywhere *)
Definition deriv_size (dim k : nat) (tau : R) (c : nat -> R) : R := (2 / tau) ^ k * Rsum dim (fun j => Rabs (c j) * Derive_n (legP j) k 1).
(** what underflow can add *)
Definition deriv_tiny (dim k : nat) (tau : R) : R := INR dim * (8 * INR dim * (2 / tau) ^ k + 4) * / 2 ^ 1075.
(** sizes for which the bounds hold: errors below one half, numbers far from overflow *)
Definition derivable (dim k n codom : nat) (tau c : nat -> R) : Prop :=
  dmat_error (dim - 1) <= / 16 /\ coef_error dim k <= / 2 /\ INR dim ^ (2 * k) <= 2 ^ 300 /\
  (forall iv, (iv < n)%nat -> (2 * spread (tau iv)) ^ k <= 2 ^ 300) /\
  (forall iv cc, (iv < n)%nat -> (cc < codom)%nat -> Rsum dim (fun j => Rabs (c ((iv * codom + cc) * dim + j)%nat)) <= 2 ^ 300).
