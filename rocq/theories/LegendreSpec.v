(** Legendre polynomials, defined on their own. *)
From Coq Require Import Reals.
From Verif Require Import RSum.
Local Open Scope R_scope.

(** (P_n, P_{n+1}) by Bonnet's recursion *)
Fixpoint leg2 (n : nat) (x : R) : R * R :=
  match n with
  | O => (1, x)
  | S m => let '(a, b) := leg2 m x in
           (b, ((2 * INR m + 3) * x * b - (INR m + 1) * a) / (INR m + 2))
  end.
Definition legP (n : nat) (x : R) : R := fst (leg2 n x).

(** position on the window [-1,1] of time t on an interval of length tau that starts at t0 *)
Definition window (t0 tau t : R) : R := 2 * (t - t0) / tau - 1.

(** sum_{i<n} c_i P_i *)
Definition leg_series (n : nat) (c : nat -> R) (x : R) : R := Rsum n (fun i => c i * legP i x).
