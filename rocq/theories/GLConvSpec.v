(** The Gauss-Lobatto rule in increasing order, defined on its own. *)
From Coq Require Import Arith Reals.
From Verif Require Import QuadSpec.
Local Open Scope R_scope.

(** the N + 1 nodes from -1 to 1 *)
Definition rule_nodes (N : nat) (z : nat -> R) : Prop :=
  lobatto_nodes N z /\ z 0%nat = -1 /\ z N = 1 /\ forall i j, (i < j)%nat -> (j <= N)%nat -> z i < z j.
