(** Vocabulary of C72: linear scaling of a spline in binary64. *)
From Coq Require Import Reals.
From Verif Require Import RSum IEEESpec.
Local Open Scope R_scope.

(** ratio of the new duration to the old one *)
Definition ratio (t0 t1 L : R) : R := L / (t1 - t0).
(** durations and lengths far from overflow and underflow *)
Definition scalable (n : nat) (t0 t1 L : R) (tau : nat -> R) : Prop :=
  t0 < t1 /\ Rabs t0 <= big /\ Rabs t1 <= big /\ Rabs L <= big /\
  / 2 ^ 1000 <= ratio t0 t1 L <= 2 ^ 1000 /\
  (forall i, (i < n)%nat -> / 2 ^ 1000 <= ratio t0 t1 L * tau i) /\
  (1 + uu) ^ S n * (Rabs t0 + 2 * Rsum n (fun i => ratio t0 t1 L * tau i)) <= big.
(** how far the breakpoints of the scaled spline move *)
Definition scaled_time_error (t0 F : R) (tau : nat -> R) (n : nat) : R := 2 * time_error t0 (fun i => F * tau i) n.
(** the time of the original spline that belongs to time t of the scaled one *)
Definition original_time (t0 F t : R) : R := t0 + (t - t0) / F.
