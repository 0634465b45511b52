(** Rounding in the exponential-trigonometric basis: accuracy asked of pow, error bounds. *)
From Coquelicot Require Import Coquelicot.
From Coq Require Import ZArith Reals.
From Flocq Require Import Core BinarySingleNaN.
From Verif Require Import IEEEModel IEEESpec Basis0101Spec.
Local Open Scope R_scope.

(** pow with exponent 1/4, relative to the exact root *)
Definition accurate_root (m : libm) (eps : R) : Prop :=
  forall x y, fin x -> 0 < val x <= 1 -> fin y -> val y = / 4 ->
    fin (m_pow m x y) /\ Rabs (val (m_pow m x y) - Rpower (val x) (/ 4)) <= eps * Rpower (val x) (/ 4).
(** error of a basis function whose argument is p = tau k s *)
Definition b01_error (p : R) : R := uu * exp (Rabs p) * (30 * Rabs p + 6).
(** error of the derivative of order d with respect to time *)
Definition b01_deriv_error (k p : R) (d : nat) : R := uu * (4 * k) ^ d * exp (Rabs p) * (30 * Rabs p + 6 + 16 * INR d).
(** relative error of the value of a piece where the argument is at most P *)
Definition b01_value_error (P : R) : R := uu * exp P * (30 * P + 21).
