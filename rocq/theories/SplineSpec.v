(** Bases and piecewise functions, defined on their own: what the objects of
    the library denote. *)
From Coquelicot Require Import Coquelicot.
From Coq Require Import Reals.
From Verif Require Import RSum LegendreSpec LagrangeSpec Basis0101Spec.
Local Open Scope R_scope.

(** Legendre polynomials of degree < dim; Lagrange polynomials on n nodes; the
    six exponential-trigonometric functions with weight alpha *)
Inductive bdesc :=
| DLeg (dim : nat)
| DLag (n : nat) (x : nat -> R)
| D01 (alpha : R).
Definition d_dim (d : bdesc) : nat := match d with DLeg k => k | DLag n _ => n | D01 _ => 6%nat end.
(** i-th function at window coordinate s of an interval of length tau *)
Definition phi (d : bdesc) (tau : R) (i : nat) (s : R) : R :=
  match d with
  | DLeg _ => legP i s
  | DLag n x => lagr n x i s
  | D01 a => b01f i (tau * b01K a * s)
  end.
(** the same as a function of time, on the interval [t0, t0 + tau] *)
Definition tphi (d : bdesc) (t0 tau : R) (i : nat) (t : R) : R := phi d tau i (window t0 tau t).

(** sum_i c_i phi_i as a function of time *)
Definition series (d : bdesc) (t0 tau : R) (c : nat -> R) (t : R) : R :=
  Rsum (d_dim d) (fun i => c i * tphi d t0 tau i t).

(** k-th breakpoint *)
Definition bp (t0 : R) (tau : nat -> R) (k : nat) : R := t0 + Rsum k tau.
(** component cc of the iv-th piece; coefficients stored interval by interval,
    component by component *)
Definition piece (d : bdesc) (codom : nat) (t0 : R) (tau c : nat -> R) (iv cc : nat) (t : R) : R :=
  Rsum (d_dim d) (fun bb => c ((iv * codom + cc) * d_dim d + bb)%nat * tphi d (bp t0 tau iv) (tau iv) bb t).
(** jump of the k-th derivative of component cc at the end of piece iv *)
Definition jump (d : bdesc) (codom : nat) (t0 : R) (tau c : nat -> R) (k iv cc : nat) : R :=
  Derive_n (piece d codom t0 tau c iv cc) k (bp t0 tau (S iv)) -
  Derive_n (piece d codom t0 tau c (S iv) cc) k (bp t0 tau (S iv)).

(** index of the interval that contains t: how many of the inner breakpoints
    bp 1, ..., bp (n-1) lie strictly before t *)
Fixpoint before (b : nat -> R) (t : R) (m : nat) : nat :=
  match m with O => 0%nat | S m' => (before b t m' + if Rlt_dec (b m) t then 1 else 0)%nat end.
Definition locate (t0 : R) (tau : nat -> R) (n : nat) (t : R) : nat := before (bp t0 tau) t (n - 1).
(** component cc of the piecewise function *)
Definition sfun (d : bdesc) (codom n : nat) (t0 : R) (tau c : nat -> R) (cc : nat) (t : R) : R :=
  piece d codom t0 tau c (locate t0 tau n t) cc t.

(** t belongs to interval iv of n: left open, right closed, the first and the last extended to infinity *)
Definition in_iv (t0 : R) (tf : nat -> R) (n : nat) (t : R) (iv : nat) : Prop :=
  (iv < n)%nat /\ (iv = 0%nat \/ bp t0 tf iv < t) /\ (iv = (n - 1)%nat \/ t <= bp t0 tf (S iv)).
(** the same without the end points *)
Definition inside (t0 : R) (tf : nat -> R) (n : nat) (t : R) (iv : nat) : Prop :=
  (iv < n)%nat /\ (iv = 0%nat \/ bp t0 tf iv < t) /\ (iv = (n - 1)%nat \/ t < bp t0 tf (S iv)).
(** window coordinate of t in its interval *)
Definition wpos (t0 : R) (tf : nat -> R) (n : nat) (t : R) : R :=
  window (bp t0 tf (locate t0 tf n t)) (tf (locate t0 tf n t)) t.

(** weight alpha' of the exponential-trigonometric basis with b01K alpha' = b01K alpha / f *)
Definition alpha_scaled (a f : R) : R := let k4 := 64 * (b01K a / f) ^ 4 in k4 / (1 + k4).
Definition d_scaled (d : bdesc) (f : R) : bdesc := match d with D01 a => D01 (alpha_scaled a f) | _ => d end.

(** the i-th sample instant *)
Definition sample (t0 t1 : R) (nseg i : nat) : R :=
  if Nat.eqb nseg 0 then t1 else t0 + INR i * ((t1 - t0) / INR nseg).
(** factor chosen by the limiter: the largest ratio *)
Definition limit_factor (np codom : nat) (V A : nat -> nat -> R) (vb ab : nat -> R) (f : R) : Prop :=
  (forall i j, (i < np)%nat -> (j < codom)%nat -> Rabs (V i j) / vb j <= f /\ sqrt (Rabs (A i j) / ab j) <= f) /\
  exists i j, (i < np)%nat /\ (j < codom)%nat /\ (f = Rabs (V i j) / vb j \/ f = sqrt (Rabs (A i j) / ab j)).
