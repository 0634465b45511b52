(** Linear systems on their own: what it means that a matrix and a right-hand side are the
    interpolation conditions, and what is asked of the sparse solver. *)
From Coquelicot Require Import Coquelicot.
From Coq Require Import Reals Arith.
From Verif Require Import RSum RGauss Outcome LinAlg BasisModel SplineSpec InterpSpec.
Local Open Scope R_scope.

(** coefficient (i, j); what is not stored is zero *)
Definition entry (A : smat R) (i j : nat) : R := match sget A i j with Some x => x | None => 0 end.
(** N x N *)
Definition square (A : smat R) (N : nat) : Prop := srows A = N /\ scols A = N.
(** x solves A x = b *)
Definition solves (N : nat) (A : smat R) (x b : nat -> R) : Prop :=
  forall i, (i < N)%nat -> Rsum N (fun j => entry A i j * x j) = b i.
(** an exact direct solver: it succeeds on every matrix that is not singular and solves the system *)
Definition exact_solver (lu : smat R -> option (vec R -> vec R)) : Prop :=
  forall N A, square A N -> nonsing N (entry A) ->
    exists f, lu A = Some f /\ forall b bf, vec_is b N bf -> exists xf, vec_is (f b) N xf /\ solves N A xf bf.

(** one row per condition, in some order: row [i] of A c - b is by how much c misses condition number i *)
Definition is_system (d : bdesc) (codom n : nat) (t0 : R) (tau : nat -> R) (W : nat -> nat -> R) (A : smat R) (b : nat -> R) : Prop :=
  let N := (d_dim d * codom * n)%nat in
  square A N /\
  exists row : cond -> nat,
    (forall q, cond_ok (d_dim d) codom n q -> (row q < N)%nat) /\
    (forall q q', cond_ok (d_dim d) codom n q -> cond_ok (d_dim d) codom n q' -> row q = row q' -> q = q') /\
    (forall i, (i < N)%nat -> exists q, cond_ok (d_dim d) codom n q /\ row q = i) /\
    forall q c, cond_ok (d_dim d) codom n q ->
      Rsum N (fun j => entry A (row q) j * c j) - b (row q) = residual d codom n t0 tau W c q.
