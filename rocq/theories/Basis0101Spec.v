(** The six functions of basis0101, defined on their own. *)
From Coquelicot Require Import Coquelicot.
From Coq Require Import Reals.
From Verif Require Import RSum LegendreSpec.
Local Open Scope R_scope.

(** sqrt(2)/4 (alpha/(1-alpha))^(1/4) *)
Definition b01K (alpha : R) : R := sqrt 2 / 4 * Rpower (alpha / (1 - alpha)) (/ 4).

(** e^p cos p, e^p sin p, e^-p cos p, e^-p sin p, p, 1 *)
Definition b01f (i : nat) (p : R) : R :=
  match i with
  | 0%nat => exp p * cos p
  | 1%nat => exp p * sin p
  | 2%nat => exp (- p) * cos p
  | 3%nat => exp (- p) * sin p
  | 4%nat => p
  | _ => 1
  end.

(** the i-th function as a function of time on the interval [t0, t0 + tau] *)
Definition b01_time (K t0 tau : R) (i : nat) (t : R) : R := b01f i (tau * K * window t0 tau t).

(** sum_i c_i f_i *)
Definition b01_series (K t0 tau : R) (c : nat -> R) (t : R) : R :=
  Rsum 6 (fun i => c i * b01_time K t0 tau i t).

(** [v] is the integral over [0, tau] of the product of d-th time derivatives of functions i and j *)
Definition b01_gram (K tau : R) (d i j : nat) (v : R) : Prop :=
  is_RInt (fun t => Derive_n (b01_time K 0 tau i) d t * Derive_n (b01_time K 0 tau j) d t) 0 tau v.
