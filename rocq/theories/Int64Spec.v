(** Accuracy of a numerical integral, defined on its own. *)
From Coq Require Import Reals.
From Verif Require Import IEEEModel IEEESpec GL64Spec.
Local Open Scope R_scope.

(** how far the points of evaluation may be moved when no end of the interval exceeds D *)
Definition shift (D : R) : R := 20 * / 2 ^ 53 * D.
(** rounding errors of the sums over np points and n intervals, per unit of length, when the integrand is at most B and is evaluated within eps *)
Definition sum_error (np n : nat) (B eps : R) : R := 1001 / 1000 * eps + 102 / 100 * (INR np + INR n + 5) * / 2 ^ 53 * (B + eps).
(** error of the computed rule, per unit of length, when the integrand is at most B and changes at rate at most K; h is the length of one part *)
Definition rule_error (np : nat) (h B K : R) : R := B * weight_error (np - 1) + K * (h / 2) * node_error (np - 1).
(** the computed integrand is close to F on the interval and a little beyond *)
Definition near_on (g : b64 -> b64) (F : R -> R) (lo hi delta : R) : Prop :=
  forall t, fin t -> lo <= val t <= hi -> fin (g t) /\ Rabs (val (g t) - F (val t)) <= delta.
Definition lipschitz (F : R -> R) (K lo hi : R) : Prop := forall s t, lo <= s <= hi -> lo <= t <= hi -> Rabs (F s - F t) <= K * Rabs (s - t).
