(** How fast the components of a function expression can change, read off the text of the expression, and the error of a
    numerical integral in terms of it. *)
From Coquelicot Require Import Coquelicot.
From Coq Require Import ZArith Reals List Bool.
From Verif Require Import Num Outcome FunModel FunSpec IEEEModel IEEESpec IEEEFunSpec GL64Spec Int64Spec.
Import ListNotations.
Local Open Scope R_scope.

(** the slope of a polynomial, with absolute values *)
Fixpoint poly_rate (c : list R) (a : R) : R :=
  match c with
  | [] => 0
  | _ :: c' => power_sum (map Rabs c') a + a * poly_rate c' a
  end.
(** bounds of the slopes of the components, for arguments of magnitude at most a: the rules of differentiation with absolute values *)
Fixpoint rates (f : fn b64) (a : R) : list R :=
  match f with
  | FConst _ v => map (fun _ => 0) v
  | FDil _ c => [Rabs (val c)]
  | FExp _ => [exp a]
  | FCos _ | FSin _ => [1]
  | FPoly _ c => [poly_rate (map val c) a]
  | FDot _ f1 f2 => [fold_left Rplus (map2 (fun p q => snd p * fst q + fst p * snd q) (combine (sizes f1 a) (rates f1 a)) (combine (sizes f2 a) (rates f2 a))) 0]
  | FExt _ _ _ _ | FPy _ _ _ _ => []
  | FExpr SUM _ c args => fold_left (fun acc g => map2 Rplus acc (rates g a)) args (repeat 0 c)
  | FExpr MULTIPLICATION _ _ args =>
      match args with
      | [] => []
      | g0 :: rest =>
          snd (fold_left (fun (acc : list R * list R) g =>
                 (map (fun x => x * hd 0 (sizes g a) + tiny) (fst acc),
                  map2 (fun x k => k * hd 0 (sizes g a) + x * hd 0 (rates g a)) (fst acc) (snd acc)))
               rest (sizes g0 a, rates g0 a))
      end
  | FExpr COMPOSITION _ _ args =>
      snd (fold_left (fun (s : list R * list R) g => (sizes g (hd 0 (fst s)), map (fun k => k * hd 0 (snd s)) (rates g (hd 0 (fst s))))) args ([a], [1]))
  | FExpr CONCATENATION _ _ _ => []
  | FExpr _ _ _ args => match args with [g] => rates g a | _ => [] end
  end.

(** a scalar expression with points up to D: largest magnitude of an argument, bounds of value, slope and rounding error *)
Definition reach (D : R) : R := D + shift D.
Definition value_bound (f : fn b64) (D : R) : R := hd 0 (sizes f (reach D)) + / 2 ^ 500.
Definition slope_bound (f : fn b64) (D : R) : R := hd 0 (rates f (reach D)).
Definition round_bound (f : fn b64) (D : R) : R := ((1 + uu) ^ ops f 0 - 1) * value_bound f D + slope_bound f D * shift D.
(** rounding error of the integral from a to b with np points in each of n parts *)
Definition integral_error (f : fn b64) (np n : nat) (a b D : R) : R :=
  (b - a) * (sum_error np n (value_bound f D) (round_bound f D) + rule_error np ((b - a) / INR n) (value_bound f D) (slope_bound f D)).
