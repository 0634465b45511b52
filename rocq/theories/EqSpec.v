(** What equality of bases and splines means. *)
From Coq Require Import Reals.
From Verif Require Import ToolsSpec SplineSpec.
Local Open Scope R_scope.

(** vectors of the same length: the largest difference is small, absolutely if one of them is small, relatively to the largest entry otherwise *)
Definition vclose (n : nat) (f g : nat -> R) (tol : R) : Prop :=
  n = 0%nat \/ exists err la ra, maxabs n 1 (fun i _ => f i - g i) err /\ maxabs n 1 (fun i _ => f i) la /\ maxabs n 1 (fun i _ => g i) ra /\ close err la ra tol.
(** bases: same family, same dimension, parameters close *)
Definition same_basis (d d' : bdesc) : Prop :=
  match d, d' with
  | DLeg k, DLeg k' => k = k'
  | DLag n x, DLag n' x' => n = n' /\ vclose n x x' (/ 10 ^ 6)
  | D01 a, D01 a' => vclose 1 (fun _ => a) (fun _ => a') (/ 10 ^ 6)
  | _, _ => False
  end.
