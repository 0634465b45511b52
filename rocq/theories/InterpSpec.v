(** The interpolation problem, stated on its own: which conditions the
    interpolating spline has to meet. *)
From Coquelicot Require Import Coquelicot.
From Coq Require Import Reals Arith.
From Verif Require Import RSum SplineSpec.
Local Open Scope R_scope.

(** the conditions: component cc starts/ends piece iv at a waypoint; derivative d+1
    of component cc is continuous between pieces iv and iv+1; derivative d+1 vanishes at the beginning/at the end *)
Inductive cond :=
| CStart (iv cc : nat)
| CEnd (iv cc : nat)
| CCont (iv cc d : nat)
| CFirst (cc d : nat)
| CLast (cc d : nat).
(** n intervals, [codom] components, basis dimension [dim] *)
Definition cond_ok (dim codom n : nat) (q : cond) : Prop :=
  match q with
  | CStart iv cc | CEnd iv cc => (iv < n /\ cc < codom)%nat
  | CCont iv cc d => (S iv < n /\ cc < codom /\ d < dim - 2)%nat
  | CFirst cc d | CLast cc d => (cc < codom /\ d < dim / 2 - 1)%nat
  end.

(** by how much a coefficient vector misses a condition *)
Definition residual (bd : bdesc) (codom n : nat) (t0 : R) (tau : nat -> R) (W : nat -> nat -> R) (c : nat -> R) (q : cond) : R :=
  let p := piece bd codom t0 tau c in
  let b := bp t0 tau in
  match q with
  | CStart iv cc => p iv cc (b iv) - W iv cc
  | CEnd iv cc => p iv cc (b (S iv)) - W (S iv) cc
  | CCont iv cc d => Derive_n (p iv cc) (S d) (b (S iv)) - Derive_n (p (S iv) cc) (S d) (b (S iv))
  | CFirst cc d => Derive_n (p 0%nat cc) (S d) (b 0%nat)
  | CLast cc d => Derive_n (p (n - 1)%nat cc) (S d) (b n)
  end.

(** all conditions hold *)
Definition interpolates (bd : bdesc) (codom n : nat) (t0 : R) (tau : nat -> R) (W : nat -> nat -> R) (c : nat -> R) : Prop :=
  forall q, cond_ok (d_dim bd) codom n q -> residual bd codom n t0 tau W c q = 0.

(** one interval length replaced *)
Definition set_len (tau : nat -> R) (i : nat) (x : R) (k : nat) : R := if Nat.eqb k i then x else tau k.
