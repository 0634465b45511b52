(** Accuracy of a computed Gauss-Lobatto rule, and of the library functions it needs, defined on their own. *)
From Coq Require Import Reals.
From Verif Require Import IEEEModel IEEESpec.
Local Open Scope R_scope.

(** the cosine is within eps everywhere; the constant is within two units in its last place of pi *)
Definition accurate_cos (m : libm) (eps : R) : Prop := forall t, fin t -> fin (m_cos m t) /\ Rabs (val (m_cos m t) - cos (val t)) <= eps.
Definition accurate_pi (m : libm) : Prop := fin (m_pi m) /\ Rabs (val (m_pi m) - PI) <= 4 * uu.

(** absolute error of a node and relative error of a weight of the rule with N + 1 points *)
Definition node_error (N : nat) : R := 16 * (INR N * sqrt (INR N)) * / 2 ^ 53.
Definition weight_error (N : nat) : R := 32 * (INR N * INR N * sqrt (INR N)) * / 2 ^ 53.
