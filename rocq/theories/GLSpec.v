(** Gauss-Lobatto quadrature, defined on its own. *)
From Coquelicot Require Import Coquelicot.
From Coq Require Import Reals.
From Verif Require Import RSum LegendreSpec.
Local Open Scope R_scope.

(** The N+1 Gauss-Lobatto nodes are the roots of (1 - t^2) P_N'(t). *)
Definition lobatto (N : nat) (t : R) : R := (1 - t * t) * Derive (legP N) t.
(** weight attached to a node *)
Definition lob_weight (N : nat) (x : R) : R := 2 / (INR N * (INR N + 1) * legP N x ^ 2).
(** the polynomial whose roots are searched *)
Definition lob_q (N : nat) (t : R) : R := legP (S N) t - legP (N - 1) t.

(** s is a run of Newton's method on [f] *)
Definition newton_run (f : R -> R) (s : nat -> R) (k : nat) : Prop :=
  forall i, (i < k)%nat -> exists d, is_derive f (s i) d /\ s (S i) = s i - f (s i) / d.
(** step i+1 changes the iterate by less than 1e-9 of its size *)
Definition small_step (s : nat -> R) (i : nat) : Prop :=
  Rabs (s (S i) - s i) < 1 / 1000000000 * Rabs (s (S i)).

(** Position of window coordinate x on the interval [a, a + len]. *)
Definition on_interval (a len x : R) : R := a + len * (x + 1) / 2.
