(** Composite quadrature, defined on its own. *)
From Coquelicot Require Import Coquelicot.
From Coq Require Import Arith Reals.
From Verif Require Import RSum GLSpec.
Local Open Scope R_scope.

(** sum over [n] equal intervals of [a, b] of the rule with [np] nodes [x] and weights [w] on [-1, 1] *)
Definition quad (np n : nat) (x w : nat -> R) (a b : R) (F : R -> R) : R :=
  Rsum n (fun iv => (b - a) / INR n / 2 *
    Rsum np (fun i => w i * F (on_interval (a + INR iv * ((b - a) / INR n)) ((b - a) / INR n) (x i)))).

(** real polynomials of degree at most [d] *)
Definition poly (d : nat) (F : R -> R) : Prop := exists c : nat -> R, forall t, F t = Rsum (S d) (fun k => c k * t ^ k).

(** [x] are the [N + 1] distinct Gauss-Lobatto nodes *)
Definition lobatto_nodes (N : nat) (x : nat -> R) : Prop :=
  (forall i, (i <= N)%nat -> lobatto N (x i) = 0) /\ (forall i j, (i <= N)%nat -> (j <= N)%nat -> x i = x j -> i = j).
