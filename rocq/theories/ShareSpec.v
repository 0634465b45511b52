(** Data races between threads that use splines, and which operations users may run at the same time. *)
From Coq Require Import List Arith Bool.
From Verif Require Import Num Outcome LinAlg BasisModel GSplineModel ShareModel.
Import ListNotations.

Section Spec.
Context {T : Type} `{Num T}.

(** the scratch vector and the array of differentiation matrices of a spline *)
Inductive loc := Scratch (x : nat) | Array (x : nat).
(** the location that the next access touches, and whether it writes *)
Definition next {A} (p : prog T A) : option (loc * bool) :=
  match p with
  | Ret _ => None
  | Put x _ _ => Some (Scratch x, true)
  | Get x _ => Some (Scratch x, false)
  | Load x _ => Some (Array x, false)
  | Push x _ _ => Some (Array x, true)
  end.
(** two threads about to touch the same location, one of them writing *)
Definition race {A} (c : list (prog T A) * mem T) : Prop :=
  exists i j p q l a b, i <> j /\ nth_error (fst c) i = Some p /\ nth_error (fst c) j = Some q /\
    next p = Some (l, a) /\ next q = Some (l, b) /\ (a = true \/ b = true).

(** derivatives of order k of variable x have been taken before (or are of order 0) *)
Definition prepared (vars : list (gspline T)) (x k : nat) : Prop :=
  k = 0 \/ forall g, nth_error vars x = Some g -> k < length (bs_blocks (gs_bst g)).
Definition target (o : op T) : nat := match o with OValue x _ => x | ODeriv x _ => x | OCopy x => x end.
(** the rules for two threads that use the same variable *)
Definition may_overlap (vars : list (gspline T)) (a b : op T) : Prop :=
  target a <> target b \/
  match a, b with
  | OValue _ _, OValue _ _ => False
  | ODeriv x k, ODeriv y k' => prepared vars x k /\ prepared vars y k'
  | ODeriv x k, OCopy _ => prepared vars x k
  | OCopy _, ODeriv y k => prepared vars y k
  | _, _ => True
  end.
Definition compatible (vars : list (gspline T)) (ops : list (op T)) : Prop :=
  forall i j a b, i <> j -> nth_error ops i = Some a -> nth_error ops j = Some b -> may_overlap vars a b.
Definition omap {A B} (f : A -> B) (o : outcome A) : outcome B := match o with Ok a => Ok (f a) | Throw e => Throw e | UB => UB end.
(** what an operation gives when nothing else runs *)
Definition sequential (vars : list (gspline T)) (o : op T) : outcome (result T) :=
  match o with
  | OValue x pts => match nth_error vars x with Some g => omap Rows (gs_value g pts) | None => UB end
  | ODeriv x k => match nth_error vars x with Some g => omap Spline (gs_derivate g k) | None => UB end
  | OCopy x => match nth_error vars x with Some g => omap Spline (gs_copy g) | None => UB end
  end.
End Spec.
