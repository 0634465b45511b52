(** Weighted Sobolev products of piecewise functions, stated on their own. *)
From Coquelicot Require Import Coquelicot.
From Coq Require Import List Arith Reals.
From Verif Require Import RSum SplineSpec.
Import ListNotations.
Local Open Scope R_scope.

(** sum over intervals, components and pairs of basis functions: matrix [G iv] on interval [iv] *)
Definition bform (dim c n : nat) (G : nat -> nat -> nat -> R) (x y : nat -> R) : R :=
  Rsum n (fun iv => Rsum c (fun cc => Rsum dim (fun i => Rsum dim (fun j =>
    G iv i j * x ((iv * c + cc) * dim + i)%nat * y ((iv * c + cc) * dim + j)%nat)))).

(** [v] is the integral over the whole domain of the scalar product of the k-th derivatives of two splines *)
Definition is_energy (d : bdesc) (c n : nat) (t0 : R) (tf : nat -> R) (k : nat) (x y : nat -> R) (v : R) : Prop :=
  is_RInt (fun t => Rsum c (fun cc => Derive_n (sfun d c n t0 tf x cc) k t * Derive_n (sfun d c n t0 tf y cc) k t)) t0 (bp t0 tf n) v.

(** sum of w E(k) over the weights: the weighted sum a Sobolev product should be *)
Fixpoint wtotal (ws : list (nat * R)) (E : nat -> R) : R :=
  match ws with [] => 0 | (k, w) :: r => w * E k + wtotal r E end.
(** the same with each term multiplied by all the later weights too *)
Fixpoint wprod (ws : list (nat * R)) : R := match ws with [] => 1 | (_, w) :: r => w * wprod r end.
Fixpoint ctotal (ws : list (nat * R)) (E : nat -> R) : R :=
  match ws with [] => 0 | (k, w) :: r => w * wprod r * E k + ctotal r E end.
