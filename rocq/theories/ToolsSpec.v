(** What approximate equality means. *)
From Coq Require Import Reals.
Local Open Scope R_scope.

(** the largest absolute value of an entry *)
Definition maxabs (r c : nat) (F : nat -> nat -> R) (M : R) : Prop :=
  (forall i j, (i < r)%nat -> (j < c)%nat -> Rabs (F i j) <= M) /\
  exists i j, (i < r)%nat /\ (j < c)%nat /\ M = Rabs (F i j).
(** closeness of two numbers with tolerance tol, given their distance and magnitudes *)
Definition close (err la ra tol : R) : Prop :=
  ((la < tol \/ ra < tol) /\ err < tol) \/ (tol <= la /\ tol <= ra /\ err < la * tol /\ err < ra * tol).
