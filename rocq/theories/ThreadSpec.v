(** Data races, and which operations users may run at the same time. *)
From Coq Require Import List Arith Bool.
From Verif Require Import Num Outcome FunModel HeapModel ThreadModel.
Import ListNotations.

Section Spec.
Context {T : Type} `{Num T}.

(** the location that the next access touches ([None]: the counter), and whether it writes *)
Definition next {A} (p : prog T A) : option (option place * bool) :=
  match p with
  | Ret _ => None
  | Put w _ _ => Some (Some w, true)
  | Get w _ => Some (Some w, false)
  | Load _ => Some (None, false)
  | Store _ _ => Some (None, true)
  end.
(** two threads about to touch the same location, one of them writing *)
Definition race {A} (c : list (prog T A) * mem T) : Prop :=
  exists i j p q l a b, i <> j /\ nth_error (fst c) i = Some p /\ nth_error (fst c) j = Some q /\
    next p = Some (l, a) /\ next q = Some (l, b) /\ (a = true \/ b = true).

(** a spline somewhere in the tree *)
Fixpoint has_spline (f : fn T) : bool :=
  match f with
  | FExt _ _ _ _ => true
  | FDot _ f1 f2 => has_spline f1 || has_spline f2
  | FExpr _ _ _ args => existsb has_spline args
  | _ => false
  end.
(** evaluations of different variables, evaluations of one variable without splines, and one copy *)
Definition may_overlap (s : state T) (a b : op T) : Prop :=
  match a, b with
  | OEval x _, OEval y _ => x <> y \/ (forall f, look_var s x = Ok f -> has_spline f = false)
  | OCopy _, OCopy _ => False
  | _, _ => True
  end.
Definition compatible (s : state T) (ops : list (op T)) : Prop :=
  forall i j a b, i <> j -> nth_error ops i = Some a -> nth_error ops j = Some b -> may_overlap s a b.
(** what an operation gives when nothing else runs *)
Definition sequential (dbg : bool) (s : state T) (o : op T) : outcome (result T) :=
  match o with
  | OEval x pts => match call_var dbg s x pts with Ok r => Ok (Rows r) | Throw e => Throw e | UB => UB end
  | OCopy x => match look_var s x with Ok f => Ok (Tree f) | Throw e => Throw e | UB => UB end
  end.

(** the heap node at the end of a way down from a variable *)
Fixpoint elements (s : state T) (x : nat) (way : list nat) : option (list ptr) :=
  match way with
  | [] => option_map o_args (nth_error (st_vars s) x)
  | i :: up =>
      match elements s x up with
      | Some ps =>
          match nth_error ps i with
          | Some (Some a) => match nth_error (st_heap s) a with Some (NExpr _ _ _ qs) => Some qs | _ => None end
          | _ => None
          end
      | None => None
      end
  end.
Definition node_at (s : state T) (w : place) : option nat :=
  match snd w with
  | [] => None
  | i :: up => match elements s (fst w) up with
               | Some ps => match nth_error ps i with Some (Some a) => Some a | _ => None end
               | None => None
               end
  end.
(** the part of a tree at the end of a way *)
Fixpoint at_way (f : fn T) (way : list nat) : option (fn T) :=
  match way with
  | [] => Some f
  | i :: up =>
      match at_way f up with
      | Some (FExpr _ _ _ args) => nth_error args i
      | Some (FDot _ f1 f2) => nth_error [f1; f2] i
      | _ => None
      end
  end.
(** a program may touch a buffer, for some content of the memory *)
Inductive touches {A} : prog T A -> place -> Prop :=
| touch_put w v k : touches (Put w v k) w
| touch_get w k : touches (Get w k) w
| after_put w v k w' : touches k w' -> touches (Put w v k) w'
| after_get w k v w' : touches (k v) w' -> touches (Get w k) w'
| after_load k n w' : touches (k n) w' -> touches (Load k) w'
| after_store n k w' : touches k w' -> touches (Store n k) w'.
End Spec.
