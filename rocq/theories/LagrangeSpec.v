(** Lagrange polynomials, defined on their own. *)
From Coq Require Import Reals.
From Verif Require Import RSum RPoly.
Local Open Scope R_scope.

(** l_j(s) = prod_{m<n, m<>j} (s - x_m) / (x_j - x_m) *)
Definition lagr (n : nat) (x : nat -> R) (j : nat) (s : R) : R :=
  Rprod n (fun m => if Nat.eqb m j then 1 else (s - x m) / (x j - x m)).

(** "equal up to the code's tolerance 1e-9": absolute near zero, relative otherwise *)
Definition near (a b : R) : Prop :=
  let eps := / 1000000000 in
  ((Rabs a < eps \/ Rabs b < eps) /\ Rabs (a - b) < eps) \/
  (~ (Rabs a < eps \/ Rabs b < eps) /\ Rabs (a - b) < eps * Rabs a /\ Rabs (a - b) < eps * Rabs b).

(** nodes pairwise different beyond the tolerance *)
Definition separated (n : nat) (x : nat -> R) : Prop :=
  forall i j, (i < n)%nat -> (j < n)%nat -> i <> j -> ~ near (x i) (x j).
