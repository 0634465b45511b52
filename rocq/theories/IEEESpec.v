(** Vocabulary of the theorems on rounding: finite numbers, their values, unit roundoff, underflow unit; error bounds. *)
From Coquelicot Require Import Coquelicot.
From Coq Require Import ZArith Reals List Permutation.
From Flocq Require Import Core BinarySingleNaN.
From Verif Require Import RSum FunSpec IEEEModel.
Import ListNotations.
Local Open Scope R_scope.

(** neither infinite nor NaN; the real number it stands for *)
Definition fin (x : b64) : Prop := is_finite x = true.
Definition val (x : b64) : R := B2R x.
(** unit roundoff 2^-53, half the least positive number 2^-1074, the first power of two out of range *)
Definition uu : R := / 2 ^ 53.
Definition hh : R := / 2 ^ 1075.
Definition omax : R := bpow radix2 1024.
(** magnitudes far from overflow *)
Definition big : R := 2 ^ 1000.

(** error of a polynomial with coefficients c at t *)
Definition poly_error (c : list R) (t : R) : R :=
  let n := (length c - 1)%nat in
  ((1 + uu) ^ (2 * n) - 1) * power_sum (map Rabs c) (Rabs t) + hh * (1 + uu) ^ (2 * n) * power_sum (repeat 1 n) (Rabs t).
(** a bound of all intermediate results for |t| <= T, 1 <= T *)
Definition poly_size (c : list R) (T : R) : R :=
  let n := (length c - 1)%nat in
  (1 + uu) ^ (2 * n) * T ^ n * (fold_right Rplus 0 (map Rabs c) + INR n * hh).
(** error of the k-th Legendre polynomial at an argument known up to sg *)
Definition leg_error (sg : R) (k : nat) : R := INR k * (INR k + 1) / 2 * (3 * sg + 21 * uu).
(** how far breakpoints move: n intervals of lengths tau from t0 *)
Definition time_error (t0 : R) (tau : nat -> R) (n : nat) : R := ((1 + uu) ^ S n - 1) * (Rabs t0 + Rsum n (fun i => Rabs (tau i))).
(** uncertainty of the window coordinate on an interval of length tau, breakpoints known up to dl *)
Definition window_error (dl tau : R) : R := 4 * dl / tau + 6 * uu.
(** relative error of the value of a piece: dim Legendre polynomials, window coordinate known up to sg *)
Definition value_error (dim : nat) (sg : R) : R := leg_error sg (dim - 1) + 3 * INR (dim + 1) * uu.

(** the results a machine may compute for a scalar product of pairs of numbers: products rounded and added in any order and grouping,
    or folded into a running sum by a fused multiply-add *)
Inductive dot_of : list (b64 * b64) -> b64 -> Prop :=
| dot_none : dot_of [] (B754_zero false)
| dot_mul a b : dot_of [(a, b)] (Bmult mode_NE a b)
| dot_add l l' x y : dot_of l x -> dot_of l' y -> dot_of (l ++ l') (Bplus mode_NE x y)
| dot_fma a b l x : dot_of l x -> dot_of ((a, b) :: l) (Bfma mode_NE a b x)
| dot_perm l l' x : Permutation l l' -> dot_of l x -> dot_of l' x.
