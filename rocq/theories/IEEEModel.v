(** C++'s [double] as IEEE 754 binary64 (Flocq's [binary_float 53 1024]: signed zeros, infinities, one NaN, gradual underflow),
    an instance of the arithmetic signature of Num.v.

    Simplifications.  Round to nearest even is the rounding mode; NaN payloads are not kept; operations are not contracted to fused
    multiply-adds (CMakeLists.txt 6: -O3 -mfpmath=sse, no -ffast-math, no -march) and sums are taken in the order of the model.
    What the C library returns for exp, cos, sin and pow is an argument ([libm]): IEEE 754 does not fix it. *)
From Coq Require Import ZArith Reals.
From Flocq Require Import Core BinarySingleNaN.
From Verif Require Import Num.

(* source: the type double, all files *)
Definition b64 := binary_float 53 1024.
(* source: IEEE 754 binary64 *)
Definition p53 : Prec_gt_0 53 := eq_refl.
(* source: IEEE 754 binary64 *)
Definition p1024 : Prec_lt_emax 53 1024 := eq_refl.
Global Existing Instance p53.
Global Existing Instance p1024.
(* source: std::exp, std::cos, std::sin, std::pow, M_PI: <cmath> *)
Record libm := mklibm { m_exp : b64 -> b64; m_cos : b64 -> b64; m_sin : b64 -> b64; m_pow : b64 -> b64 -> b64; m_pi : b64 }.
(* source: conversion of an integer to double *)
Definition b64_of_Z (z : Z) : b64 := binary_normalize 53 1024 _ _ mode_NE z 0 false.
(* source: the operators of double *)
Definition B64num (m : libm) : Num b64 := {|
  n0 := B754_zero false; n1 := b64_of_Z 1;
  nadd := Bplus mode_NE; nsub := Bminus mode_NE; nmul := Bmult mode_NE; ndiv := Bdiv mode_NE;
  nopp := Bopp; nabs := Babs; nltb := Bltb; nleb := Bleb; neqb := Beqb; nofZ := b64_of_Z;
  nexp := m_exp m; ncos := m_cos m; nsin := m_sin m; nsqrt := Bsqrt mode_NE; npow := m_pow m; npi := m_pi m |}.
