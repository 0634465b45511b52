(** Allocation of a total duration to intervals, stated on its own. *)
From Coq Require Import Reals Arith.
From Verif Require Import RSum.
Local Open Scope R_scope.

(** lengths allowed by the bounds and the constraint of the optimisation problem *)
Definition feasible (n : nat) (T : R) (x : nat -> R) : Prop :=
  (forall i, (i < n)%nat -> 0 <= x i <= 10 ^ 20) /\ Rsum n x = T.
(** an interval [lo, up] around a value *)
Definition within (b : R * R) (v : R) : Prop := fst b <= v <= snd b.
