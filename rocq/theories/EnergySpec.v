(** The cost of a function and the functions it is compared on, stated on their own. *)
From Coquelicot Require Import Coquelicot.
From Coq Require Import Reals Arith.
From Verif Require Import RSum SplineSpec.
Local Open Scope R_scope.

(** weight of the squared derivative of order k in the cost that belongs to a basis:
    the polynomial bases of dimension 2h weigh only order h, the exponential-trigonometric one orders 1 and 3 *)
Definition cost_weight (d : bdesc) (k : nat) : R :=
  match d with
  | D01 a => if Nat.eqb k 1 then a else if Nat.eqb k 3 then 1 - a else 0
  | _ => if Nat.eqb k (d_dim d / 2) then 1 else 0
  end.
(** the integrand of the cost: weighted squares of the derivatives of orders 0..h *)
Definition cost_at (w : nat -> R) (h : nat) (f : R -> R) (t : R) : R := Rsum (S h) (fun k => w k * (Derive_n f k t) ^ 2).
(** h times continuously differentiable *)
Definition smooth (h : nat) (f : R -> R) : Prop :=
  (forall j t, (j < h)%nat -> ex_derive (Derive_n f j) t) /\ (forall t, continuous (Derive_n f h) t).
(** a function of class C^h through the waypoints, at rest at both ends *)
Definition competitor (h n : nat) (b : nat -> R) (W : nat -> R) (f : R -> R) : Prop :=
  smooth h f /\ (forall k, (k <= n)%nat -> f (b k) = W k) /\
  (forall j, (1 <= j < h)%nat -> Derive_n f j (b 0%nat) = 0 /\ Derive_n f j (b n) = 0).
(** a function given by pieces of class C^h that join with continuous derivatives below order h *)
Definition piecewise_competitor (h n : nat) (b : nat -> R) (W : nat -> R) (p : nat -> R -> R) : Prop :=
  (forall iv, (iv < n)%nat -> smooth h (p iv) /\ p iv (b iv) = W iv /\ p iv (b (S iv)) = W (S iv)) /\
  (forall iv j, (S iv < n)%nat -> (1 <= j < h)%nat -> Derive_n (p iv) j (b (S iv)) = Derive_n (p (S iv)) j (b (S iv))) /\
  (forall j, (1 <= j < h)%nat -> Derive_n (p 0%nat) j (b 0%nat) = 0 /\ Derive_n (p (n - 1)%nat) j (b n) = 0).
