(** Error bounds of the derivatives of the Legendre basis in binary64. *)
From Coquelicot Require Import Coquelicot.
From Coq Require Import Reals.
From Verif Require Import IEEESpec.
Local Open Scope R_scope.

(** error of the d-th derivatives of the Legendre polynomials of degree at most K on [-1, 1]: errors of order d enter order d + 1, every order
    adds a rounding error proportional to the size K^(2d) of the derivatives, and a recursion of K steps multiplies by K(K+1)/2 *)
Fixpoint deriv_error (K d : nat) : R :=
  INR K * (INR K + 1) / 2 *
  match d with
  | O => 21 * uu
  | S e => 2 * INR d * deriv_error K e + (100 + 10 * INR d) * uu * INR K ^ (2 * d)
  end.
(** how far the factor 2/tau and its inverse are from 1 *)
Definition spread (tau : R) : R := Rmax (2 / tau) (tau / 2).
